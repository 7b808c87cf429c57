(** * Theorems about the decays of the Lambda_b (C206 - C208) *)
From Coq Require Import Reals Lra Psatz.
From Coquelicot Require Import Coquelicot.
From Coq Require Import String List.
From Verif Require Import Base Basics_Model Basics_Proofs Angular_Model Decays_Model Decays_Proofs Decays_Proofs5 Baryon_Model.
Import ListNotations.
Local Open Scope R_scope.

Lemma sq_is z : sq z = fst z ^ 2 + snd z ^ 2. Proof. unfold sq. apply cmod_sq. Qed.
Lemma sq_pos z : 0 <= sq z. Proof. unfold sq. apply pow2_ge_0. Qed.
Lemma re_le (z w : C) : 2 * Rabs (Re (z * Cconj w)%C) <= sq z + sq w.
Proof.
  rewrite !sq_is. destruct z as [x y], w as [u v]. cbn. pose proof (pow2_ge_0 (x - u)). pose proof (pow2_ge_0 (x + u)). pose proof (pow2_ge_0 (y - v)). pose proof (pow2_ge_0 (y + v)).
  unfold Rabs. destruct Rcase_abs; lra.
Qed.
Lemma herm (A B zx zy ux uy wx wy : R) : 0 <= A -> 0 <= B -> zx ^ 2 + zy ^ 2 <= A * B ->
  0 <= A * (ux ^ 2 + uy ^ 2) + B * (wx ^ 2 + wy ^ 2) + 2 * (zx * (ux * wx + uy * wy) - zy * (uy * wx - ux * wy)).
Proof.
  intros a b h. destruct (Req_dec A 0) as [-> | n].
  - pose proof (pow2_ge_0 zx). pose proof (pow2_ge_0 zy). assert (zx = 0) by (apply Rsqr_0_uniq; unfold Rsqr; lra). assert (zy = 0) by (apply Rsqr_0_uniq; unfold Rsqr; lra). subst.
    pose proof (Rmult_le_pos B (wx ^ 2 + wy ^ 2) b ltac:(pose proof (pow2_ge_0 wx); pose proof (pow2_ge_0 wy); lra)). lra.
  - apply Rmult_le_reg_l with A; [lra|]. rewrite Rmult_0_r.
    pose proof (pow2_ge_0 (A * ux + (zx * wx + zy * wy))). pose proof (pow2_ge_0 (A * uy + (zx * wy - zy * wx))).
    pose proof (Rmult_le_pos (A * B - (zx ^ 2 + zy ^ 2)) (wx ^ 2 + wy ^ 2) ltac:(lra) ltac:(pose proof (pow2_ge_0 wx); pose proof (pow2_ge_0 wy); lra)).
    match goal with |- 0 <= ?x => replace x with ((A * ux + (zx * wx + zy * wy)) ^ 2 + (A * uy + (zx * wy - zy * wx)) ^ 2 + (A * B - (zx ^ 2 + zy ^ 2)) * (wx ^ 2 + wy ^ 2)) by ring end. lra.
Qed.

(** ** C206: Lambda_b -> Lambda l l. c and h are the cosines of the angles of the lepton and of the proton; the azimuth has been integrated over *)
Definition two_angles (K : kcoef) (c h : R) : R := K1ss K * (1 - c ^ 2) + K1cc K * c ^ 2 + K1c K * c + (K2ss K * (1 - c ^ 2) + K2cc K * c ^ 2 + K2c K * c) * h.
Ltac comps := unfold sq; rewrite !cmod_sq; unfold Re, Im, Cconj, Cminus, Copp, Cplus, Cmult, RtoC; cbn [fst snd].
(** an incoherent sum over the chirality of the leptons and over the helicity of the Lambda *)
Theorem C206_helicity_sum : forall ta alpha c h,
  let half (X : chir) (eta : R) := (1 + alpha * h) / 2 * (1 / 2 * (1 - c ^ 2) * Cmod (perp0 ta X + para0 ta X)%C ^ 2 + 1 / 4 * (1 - eta * c) ^ 2 * Cmod (perp1 ta X + para1 ta X)%C ^ 2)
    + (1 - alpha * h) / 2 * (1 / 2 * (1 - c ^ 2) * Cmod (perp0 ta X - para0 ta X)%C ^ 2 + 1 / 4 * (1 + eta * c) ^ 2 * Cmod (perp1 ta X - para1 ta X)%C ^ 2) in
  two_angles (angular_coefficients ta alpha) c h = half cR 1 + half cL (-1).
Proof.
  intros [p1 a1 p0 a0] alpha c h half. unfold two_angles, angular_coefficients, half. cbn [K1ss K1cc K1c K2ss K2cc K2c perp1 para1 perp0 para0]. comps.
  destruct (p1 cR), (p1 cL), (a1 cR), (a1 cL), (p0 cR), (p0 cL), (a0 cR), (a0 cL). cbn [fst snd]. field.
Qed.
Print Assumptions C206_helicity_sum.
Theorem C206_nonneg : forall ta alpha c h, Rabs alpha <= 1 -> -1 <= c <= 1 -> -1 <= h <= 1 -> 0 <= two_angles (angular_coefficients ta alpha) c h.
Proof.
  intros ta alpha c h ha hc hh. rewrite C206_helicity_sum.
  assert (aC : -1 <= alpha * h <= 1) by (apply Rabs_le_between in ha; split; nra).
  assert (Q : forall (x u : R) (v w : C), 0 <= x -> 0 <= x * (1 / 2 * (1 - c ^ 2) * Cmod v ^ 2 + 1 / 4 * u ^ 2 * Cmod w ^ 2)).
  { intros x u v w hx. apply Rmult_le_pos; [exact hx|]. assert (H : 0 <= 1 - c ^ 2) by nra.
    pose proof (Rmult_le_pos _ _ H (pow2_ge_0 (Cmod v))). pose proof (Rmult_le_pos _ _ (pow2_ge_0 u) (pow2_ge_0 (Cmod w))). lra. }
  repeat apply Rplus_le_le_0_compat; apply Q; lra.
Qed.
Print Assumptions C206_nonneg.

(** the rate and the asymmetries are the integrals of the distribution *)
Lemma RInt_poly (k0 k1 k2 a b : R) : RInt (fun x => k0 + k1 * x + k2 * x ^ 2) a b = (k0 * b + k1 * b ^ 2 / 2 + k2 * b ^ 3 / 3) - (k0 * a + k1 * a ^ 2 / 2 + k2 * a ^ 3 / 3).
Proof.
  apply is_RInt_unique. apply (is_RInt_derive (fun x => k0 * x + k1 * x ^ 2 / 2 + k2 * x ^ 3 / 3)).
  - intros x _. auto_derive; [exact Logic.I | field].
  - intros x _. apply (ex_derive_continuous (fun x => k0 + k1 * x + k2 * x ^ 2)). auto_derive. exact Logic.I.
Qed.
Lemma RInt_ext' (f g : R -> R) a b : (forall x, f x = g x) -> RInt f a b = RInt g a b.
Proof. intros e. apply RInt_ext. intros x _. apply e. Qed.
Definition quadrant (K : kcoef) (c1 c2 h1 h2 : R) : R := 3 / (8 * PI) * (2 * PI) * RInt (fun c => RInt (fun h => two_angles K c h) h1 h2) c1 c2.
Lemma quadrant_is K c1 c2 h1 h2 : quadrant K c1 c2 h1 h2 = 3 / 4 * ((K1ss K * (h2 - h1) + K2ss K * (h2 ^ 2 - h1 ^ 2) / 2) * (c2 - c1 - (c2 ^ 3 - c1 ^ 3) / 3)
  + (K1cc K * (h2 - h1) + K2cc K * (h2 ^ 2 - h1 ^ 2) / 2) * (c2 ^ 3 - c1 ^ 3) / 3 + (K1c K * (h2 - h1) + K2c K * (h2 ^ 2 - h1 ^ 2) / 2) * (c2 ^ 2 - c1 ^ 2) / 2).
Proof.
  unfold quadrant. set (kk h1 h2 k1 k2 := k1 * (h2 - h1) + k2 * (h2 ^ 2 - h1 ^ 2) / 2 : R).
  rewrite (RInt_ext' _ (fun c => kk h1 h2 (K1ss K) (K2ss K) + kk h1 h2 (K1c K) (K2c K) * c + (kk h1 h2 (K1cc K) (K2cc K) - kk h1 h2 (K1ss K) (K2ss K)) * c ^ 2)).
  - rewrite RInt_poly. unfold kk. field. apply PI_neq0.
  - intros c. unfold two_angles. rewrite (RInt_ext' _ (fun h => (K1ss K * (1 - c ^ 2) + K1cc K * c ^ 2 + K1c K * c) + (K2ss K * (1 - c ^ 2) + K2cc K * c ^ 2 + K2c K * c) * h + 0 * h ^ 2)) by (intros; ring).
    rewrite RInt_poly. unfold kk. field.
Qed.
Theorem C206_moments : forall K,
  l_dGdq2 K = quadrant K (-1) 1 (-1) 1
  /\ l_AFBl_num K = quadrant K 0 1 (-1) 1 - quadrant K (-1) 0 (-1) 1
  /\ l_AFBh_num K = quadrant K (-1) 1 0 1 - quadrant K (-1) 1 (-1) 0
  /\ l_AFBlh_num K = quadrant K 0 1 0 1 - quadrant K (-1) 0 0 1 - quadrant K 0 1 (-1) 0 + quadrant K (-1) 0 (-1) 0.
Proof. intros K. rewrite !quadrant_is. unfold l_dGdq2, l_AFBl_num, l_AFBh_num, l_AFBlh_num. repeat split; field. Qed.
Print Assumptions C206_moments.
(** the longitudinal fraction is the share of the amplitudes with longitudinal dilepton *)
Theorem C206_fractions : forall ta alpha, let K := angular_coefficients ta alpha in let s (f : ta12 -> chir -> C) := Cmod (f ta cL) ^ 2 + Cmod (f ta cR) ^ 2 in
  l_FL_num K = s perp0 + s para0 /\ l_dGdq2 K - l_FL_num K = s perp1 + s para1.
Proof. intros [p1 a1 p0 a0] alpha K s. unfold K, s, angular_coefficients, l_FL_num, l_dGdq2, sq. cbn [K1ss K1cc perp1 para1 perp0 para0]. split; field. Qed.

(** *** the observables *)
Definition K_of (d : lb) (q2 : R) : kcoef := angular_coefficients (get_transverity_amps d q2) (b_alpha d).
Definition inside (ml M m q2 : R) : Prop := 4 * ml ^ 2 <= q2 <= (M - m) ^ 2.
Lemma get_in f d q2 : inside (b_ml d) (b_mLb d) (b_mL d) q2 -> l_get_obs f d q2 = f (K_of d q2).
Proof. intros (a & b). unfold l_get_obs. destruct Rlt_dec; [lra|]. destruct Rlt_dec; [lra|]. reflexivity. Qed.
Lemma get_out f d q2 : ~ inside (b_ml d) (b_mLb d) (b_mL d) q2 -> l_get_obs f d q2 = 0.
Proof. intros n. unfold l_get_obs. destruct Rlt_dec; [reflexivity|]. destruct Rlt_dec; [reflexivity|]. exfalso. apply n. unfold inside. lra. Qed.
Lemma inside_dec ml M m q2 : inside ml M m q2 \/ ~ inside ml M m q2.
Proof. unfold inside. destruct (Rle_dec (4 * ml ^ 2) q2), (Rle_dec q2 ((M - m) ^ 2)); tauto. Qed.
(** inequalities between the numerators *)
Lemma K_bounds ta alpha : let K := angular_coefficients ta alpha in
  0 <= l_FL_num K <= l_dGdq2 K /\ Rabs (l_AFBl_num K) <= 3 / 4 * (l_dGdq2 K - l_FL_num K) /\ Rabs (l_AFBh_num K) <= Rabs alpha / 2 * l_dGdq2 K
  /\ Rabs (l_AFBlh_num K) <= 3 / 8 * Rabs alpha * (l_dGdq2 K - l_FL_num K).
Proof.
  intros K. destruct (C206_fractions ta alpha) as (F & T). fold K in F, T. rewrite T.
  pose proof (pow2_ge_0 (Cmod (perp0 ta cL))) as P1. pose proof (pow2_ge_0 (Cmod (perp0 ta cR))) as P2. pose proof (pow2_ge_0 (Cmod (para0 ta cL))) as P3. pose proof (pow2_ge_0 (Cmod (para0 ta cR))) as P4.
  pose proof (pow2_ge_0 (Cmod (perp1 ta cL))) as Q1. pose proof (pow2_ge_0 (Cmod (perp1 ta cR))) as Q2. pose proof (pow2_ge_0 (Cmod (para1 ta cL))) as Q3. pose proof (pow2_ge_0 (Cmod (para1 ta cR))) as Q4.
  pose proof (re_le (perp1 ta cL) (para1 ta cL)) as R1. pose proof (re_le (perp1 ta cR) (para1 ta cR)) as R2.
  pose proof (re_le (perp0 ta cL) (para0 ta cL)) as S1. pose proof (re_le (perp0 ta cR) (para0 ta cR)) as S2. unfold sq in *.
  split; [| split; [| split]].
  - rewrite F. lra.
  - replace (l_AFBl_num K) with (3 / 2 * (Re (perp1 ta cL * Cconj (para1 ta cL))%C - Re (perp1 ta cR * Cconj (para1 ta cR))%C))
      by (unfold l_AFBl_num, K, angular_coefficients, Re, Cminus, Cplus, Copp; cbn [K1c fst snd]; ring).
    revert R1 R2. unfold Rabs. repeat destruct Rcase_abs; lra.
  - replace (l_dGdq2 K) with (Cmod (perp1 ta cL) ^ 2 + Cmod (perp1 ta cR) ^ 2 + (Cmod (para1 ta cL) ^ 2 + Cmod (para1 ta cR) ^ 2) + (Cmod (perp0 ta cL) ^ 2 + Cmod (perp0 ta cR) ^ 2 + (Cmod (para0 ta cL) ^ 2 + Cmod (para0 ta cR) ^ 2))) by lra.
    replace (l_AFBh_num K) with (alpha * (Re (perp1 ta cL * Cconj (para1 ta cL))%C + Re (perp1 ta cR * Cconj (para1 ta cR))%C + Re (perp0 ta cL * Cconj (para0 ta cL))%C + Re (perp0 ta cR * Cconj (para0 ta cR))%C))
      by (unfold l_AFBh_num, K, angular_coefficients, Re, Cminus, Cplus, Copp, Cmult, RtoC; cbn [K2ss K2cc fst snd]; field).
    rewrite Rabs_mult. unfold Rdiv. rewrite Rmult_assoc. apply Rmult_le_compat_l; [apply Rabs_pos|]. revert R1 R2 S1 S2. unfold Rabs. repeat destruct Rcase_abs; lra.
  - replace (l_AFBlh_num K) with (alpha * (3 / 8 * (Cmod (perp1 ta cL) ^ 2 + Cmod (para1 ta cL) ^ 2 - Cmod (perp1 ta cR) ^ 2 - Cmod (para1 ta cR) ^ 2)))
      by (unfold l_AFBlh_num, K, angular_coefficients, sq; cbn [K2c]; field).
    rewrite Rabs_mult, (Rmult_comm (3 / 8) (Rabs alpha)), (Rmult_assoc (Rabs alpha)). apply Rmult_le_compat_l; [apply Rabs_pos|]. apply Rabs_le. lra.
Qed.
Lemma l_num_bounds d q2 : let N f := l_get_obs f d q2 in
  0 <= N l_FL_num <= N l_dGdq2 /\ Rabs (N l_AFBl_num) <= 3 / 4 * (N l_dGdq2 - N l_FL_num) /\ Rabs (N l_AFBh_num) <= Rabs (b_alpha d) / 2 * N l_dGdq2
  /\ Rabs (N l_AFBlh_num) <= 3 / 8 * Rabs (b_alpha d) * (N l_dGdq2 - N l_FL_num).
Proof.
  intros N. unfold N. destruct (inside_dec (b_ml d) (b_mLb d) (b_mL d) q2) as [i | o].
  - rewrite !(get_in _ _ _ i). apply K_bounds.
  - rewrite !(get_out _ _ _ o). rewrite Rabs_R0. repeat split; lra.
Qed.
Lemma ratio_bounds n f l : forall k, 0 <= k -> 0 <= l <= f -> Rabs n <= k * (f - l) -> Rabs (ratio0 n f) <= k * (1 - ratio0 l f).
Proof.
  intros k hk (a & b) h. rewrite !ratio0_div. destruct (Req_dec f 0) as [-> | x].
  - unfold Rdiv. rewrite Rinv_0, !Rmult_0_r, Rabs_R0. lra.
  - unfold Rdiv. rewrite Rabs_mult, (Rabs_right (/ f)) by (left; apply Rinv_0_lt_compat; lra).
    replace (k * (1 - l * / f)) with (k * (f - l) * / f) by (field; exact x). apply Rmult_le_compat_r; [left; apply Rinv_0_lt_compat; lra | exact h].
Qed.
Lemma ratio_bounds0 n f : forall k, 0 <= k -> 0 <= f -> Rabs n <= k * f -> Rabs (ratio0 n f) <= k.
Proof. intros k a b h. pose proof (ratio_bounds n f 0 k a ltac:(lra) ltac:(now rewrite Rminus_0_r)) as X. replace (ratio0 0 f) with 0 in X by (rewrite ratio0_div; unfold Rdiv; ring). lra. Qed.
Theorem C206_bounds : forall d q2, let O f := l_ratio f l_dGdq2 d q2 in
  0 <= O l_FL_num <= 1 /\ Rabs (O l_AFBl_num) <= 3 / 4 * (1 - O l_FL_num) /\ Rabs (O l_AFBh_num) <= Rabs (b_alpha d) / 2 /\ Rabs (O l_AFBlh_num) <= 3 / 8 * Rabs (b_alpha d) * (1 - O l_FL_num).
Proof.
  intros d q2 O. unfold O, l_ratio. destruct (l_num_bounds d q2) as (F & A & H & LH). pose proof (Rabs_pos (b_alpha d)).
  split; [now apply ratio0_01 |]. split; [apply ratio_bounds; [lra | exact F | exact A] |]. split; [apply ratio_bounds0; [lra | lra | exact H] | apply ratio_bounds; [lra | exact F | exact LH]].
Qed.
Print Assumptions C206_bounds.
(** the same in bins *)
Theorem C206_bins : forall d q2min q2max, q2min < q2max ->
  (forall f, In f [l_dGdq2; l_FL_num; l_AFBl_num; l_AFBh_num; l_AFBlh_num] -> ex_RInt (fun q2 => l_get_obs f d q2) q2min q2max) -> let O f := l_int_ratio f l_dGdq2 d q2min q2max in
  0 <= O l_FL_num <= 1 /\ Rabs (O l_AFBl_num) <= 3 / 4 * (1 - O l_FL_num) /\ Rabs (O l_AFBh_num) <= Rabs (b_alpha d) / 2 /\ Rabs (O l_AFBlh_num) <= 3 / 8 * Rabs (b_alpha d) * (1 - O l_FL_num)
  /\ (0 <= b_tau d -> 0 <= l_dbrdq2_int d q2min q2max).
Proof.
  intros d q2min q2max L I O. unfold O, l_int_ratio, l_obs_int, nintegrate.
  assert (ID := I l_dGdq2 ltac:(cbn; tauto)). assert (IF := I l_FL_num ltac:(cbn; tauto)). assert (IA := I l_AFBl_num ltac:(cbn; tauto)). assert (IH := I l_AFBh_num ltac:(cbn; tauto)). assert (IX := I l_AFBlh_num ltac:(cbn; tauto)).
  set (G := RInt (l_get_obs l_dGdq2 d) q2min q2max). set (Fl := RInt (l_get_obs l_FL_num d) q2min q2max).
  assert (B : forall (f : kcoef -> R) k1 k2, ex_RInt (fun q2 => l_get_obs f d q2) q2min q2max -> (forall q2, Rabs (l_get_obs f d q2) <= k1 * l_get_obs l_dGdq2 d q2 + k2 * l_get_obs l_FL_num d q2) ->
    Rabs (RInt (l_get_obs f d) q2min q2max) <= k1 * G + k2 * Fl).
  { intros f k1 k2 If h. assert (E : RInt (fun q2 => k1 * l_get_obs l_dGdq2 d q2 + k2 * l_get_obs l_FL_num d q2) q2min q2max = k1 * G + k2 * Fl).
    { rewrite RI_plus; [| apply (ex_RInt_scal (V := R_NormedModule)); exact ID | apply (ex_RInt_scal (V := R_NormedModule)); exact IF]. rewrite !RI_scal by assumption. reflexivity. }
    assert (J : ex_RInt (fun q2 => k1 * l_get_obs l_dGdq2 d q2 + k2 * l_get_obs l_FL_num d q2) q2min q2max)
      by (apply (ex_RInt_plus (V := R_NormedModule)); apply (ex_RInt_scal (V := R_NormedModule)); assumption).
    rewrite <- E. apply Rabs_le. split.
    - rewrite <- (RInt_opp (V := R_CompleteNormedModule)) by exact J. apply RInt_le; [lra | apply (ex_RInt_opp (V := R_NormedModule)); exact J | exact If |].
      intros x _. specialize (h x). apply Rabs_le_between in h. change (- (k1 * l_get_obs l_dGdq2 d x + k2 * l_get_obs l_FL_num d x) <= l_get_obs f d x). lra.
    - apply RInt_le; [lra | exact If | exact J |]. intros x _. specialize (h x). apply Rabs_le_between in h. lra. }
  assert (F : 0 <= Fl <= G).
  { split; [apply RInt_ge_0; [lra | exact IF |] | apply RInt_le; [lra | exact IF | exact ID |]]; intros x _; destruct (l_num_bounds d x) as (F & _); lra. }
  pose proof (Rabs_pos (b_alpha d)).
  split; [now apply ratio0_01 |]. split; [| split; [| split]].
  - apply ratio_bounds; [lra | exact F |]. replace (3 / 4 * (G - Fl)) with (3 / 4 * G + - (3 / 4) * Fl) by ring. apply B; [exact IA|]. intros x. destruct (l_num_bounds d x) as (_ & A & _). lra.
  - apply ratio_bounds0; [lra | lra |]. replace (Rabs (b_alpha d) / 2 * G) with (Rabs (b_alpha d) / 2 * G + 0 * Fl) by ring. apply B; [exact IH|]. intros x. destruct (l_num_bounds d x) as (_ & _ & A & _). lra.
  - apply ratio_bounds; [lra | exact F |]. replace (3 / 8 * Rabs (b_alpha d) * (G - Fl)) with (3 / 8 * Rabs (b_alpha d) * G + - (3 / 8 * Rabs (b_alpha d)) * Fl) by ring. apply B; [exact IX|]. intros x. destruct (l_num_bounds d x) as (_ & _ & _ & A). lra.
  - intros ht. unfold l_dbrdq2_int, nintegrate, l_dbrdq2. rewrite RI_scal by exact ID. fold G. unfold Rdiv. apply Rmult_le_pos; [apply Rmult_le_pos; lra | left; apply Rinv_0_lt_compat; lra].
Qed.
Print Assumptions C206_bins.
(** the branching ratio is not negative, and vanishes outside of phase space *)
Theorem C206_dBR : forall d q2, 0 <= b_tau d -> 0 <= l_dbrdq2 d q2 /\ (q2 < 4 * b_ml d ^ 2 \/ (b_mLb d - b_mL d) ^ 2 < q2 -> l_dbrdq2 d q2 = 0 /\ forall n, l_ratio n l_dGdq2 d q2 = 0).
Proof.
  intros d q2 ht. split.
  - unfold l_dbrdq2. apply Rmult_le_pos; [exact ht|]. destruct (l_num_bounds d q2) as (F & _). lra.
  - intros o. assert (n : ~ inside (b_ml d) (b_mLb d) (b_mL d) q2) by (unfold inside; lra). unfold l_dbrdq2, l_ratio. rewrite (get_out _ _ _ n). split; [ring|]. intros m. rewrite !(get_out _ _ _ n), ratio0_div. unfold Rdiv. ring.
Qed.
Print Assumptions C206_dBR.
(** *** relations between observables of different coefficients; without the subleading contributions *)
Definition set_wc (d : lb) (w : R -> wckey -> C) : lb := Lb (b_ml d) (b_mLb d) (b_mL d) (b_tau d) (b_mb d) (b_alpha d) (b_ff d) w (b_xi d) (b_GF d) (b_aem d) (b_low d) (b_high d).
Definition no_subleading (d : lb) : Prop := forall q2 X, perp1 (b_low d q2) X = RtoC 0 /\ para1 (b_low d q2) X = RtoC 0 /\ perp0 (b_low d q2) X = RtoC 0 /\ para0 (b_low d q2) X = RtoC 0
  /\ perp1 (b_high d q2) X = RtoC 0 /\ para1 (b_high d q2) X = RtoC 0 /\ perp0 (b_high d q2) X = RtoC 0 /\ para0 (b_high d q2) X = RtoC 0.
Definition the_ff (d : lb) (q2 : R) : ta12 := transverity_amps (helicity_amps q2 (b_mLb d) (b_mL d) (b_ff d q2)) q2 (b_mb d) (b_wc d q2) (l_prefactor d q2).
Lemma amps_is d q2 X : no_subleading d -> let t := get_transverity_amps d q2 in let u := the_ff d q2 in
  perp1 t X = perp1 u X /\ para1 t X = para1 u X /\ perp0 t X = perp0 u X /\ para0 t X = para0 u X.
Proof.
  intros n t u. destruct (n q2 X) as (a1 & a2 & a3 & a4 & a5 & a6 & a7 & a8). unfold t, get_transverity_amps. fold (the_ff d q2). fold u.
  destruct Rle_dec; [| destruct Rlt_dec]; unfold ta_add; cbn [perp1 para1 perp0 para0]; rewrite ?a1, ?a2, ?a3, ?a4, ?a5, ?a6, ?a7, ?a8, ?Cplus_0_r; tauto.
Qed.
(** the mirror image: coefficients of operators with opposite chirality of the quarks exchanged *)
Definition prime (k : wckey) : wckey := match k with Wv => Wvp | Wvp => Wv | Wa => Wap | Wap => Wa | Ws => Wsp | Wsp => Ws | Wp => Wpp | Wpp => Wp | W7 => W7p | W7p => W7 | Wt => Wtp | Wtp => Wt end.
Definition mirrored (w : R -> wckey -> C) (q2 : R) (k : wckey) : C := w q2 (prime k).
(** the sign of the axial lepton current reversed: leptons of opposite chirality *)
Definition axial_reversed (w : R -> wckey -> C) (q2 : R) (k : wckey) : C := match k with Wa | Wap => Copp (w q2 k) | _ => w q2 k end.
Theorem C206_mirror : forall d q2, no_subleading d -> let d' := set_wc d (mirrored (b_wc d)) in let O e f := l_ratio f l_dGdq2 e q2 in
  l_dbrdq2 d' q2 = l_dbrdq2 d q2 /\ O d' l_FL_num = O d l_FL_num /\ O d' l_AFBlh_num = O d l_AFBlh_num /\ O d' l_AFBl_num = - O d l_AFBl_num /\ O d' l_AFBh_num = - O d l_AFBh_num.
Proof.
  intros d q2 n d' O.
  assert (n' : no_subleading d') by exact n.
  assert (T : forall X, perp1 (the_ff d' q2) X = perp1 (the_ff d q2) X /\ para1 (the_ff d' q2) X = (- para1 (the_ff d q2) X)%C /\ perp0 (the_ff d' q2) X = perp0 (the_ff d q2) X /\ para0 (the_ff d' q2) X = (- para0 (the_ff d q2) X)%C).
  { intros X. unfold the_ff, transverity_amps, l_prefactor, d'. cbn [perp1 para1 perp0 para0 set_wc b_mLb b_mL b_ff b_mb b_wc b_GF b_xi b_aem].
    unfold mirrored, C910pl, C910mi. cbn [prime]. unfold Cdiv. generalize (/ RtoC q2)%C. intros iq. destruct X; repeat split; ring. }
  assert (E : l_get_obs l_dGdq2 d' q2 = l_get_obs l_dGdq2 d q2 /\ l_get_obs l_FL_num d' q2 = l_get_obs l_FL_num d q2 /\ l_get_obs l_AFBlh_num d' q2 = l_get_obs l_AFBlh_num d q2
    /\ l_get_obs l_AFBl_num d' q2 = - l_get_obs l_AFBl_num d q2 /\ l_get_obs l_AFBh_num d' q2 = - l_get_obs l_AFBh_num d q2).
  { destruct (inside_dec (b_ml d) (b_mLb d) (b_mL d) q2) as [i | o].
    - assert (i' : inside (b_ml d') (b_mLb d') (b_mL d') q2) by exact i. rewrite !(get_in _ _ _ i), !(get_in _ _ _ i'). unfold K_of.
      destruct (amps_is d q2 cL n) as (a1 & a2 & a3 & a4). destruct (amps_is d q2 cR n) as (b1 & b2 & b3 & b4).
      destruct (amps_is d' q2 cL n') as (c1 & c2 & c3 & c4). destruct (amps_is d' q2 cR n') as (e1 & e2 & e3 & e4).
      destruct (T cL) as (t1 & t2 & t3 & t4). destruct (T cR) as (u1 & u2 & u3 & u4).
      change (b_alpha d') with (b_alpha d).
      unfold l_dGdq2, l_FL_num, l_AFBlh_num, l_AFBl_num, l_AFBh_num, angular_coefficients, sq. cbn [K1ss K1cc K1c K2ss K2cc K2c].
      rewrite ?a1, ?a2, ?a3, ?a4, ?b1, ?b2, ?b3, ?b4, ?c1, ?c2, ?c3, ?c4, ?e1, ?e2, ?e3, ?e4, ?t1, ?t2, ?t3, ?t4, ?u1, ?u2, ?u3, ?u4, !Cmod_opp.
      repeat split; unfold Re, Cminus, Cplus, Copp, Cmult, Cconj, RtoC; cbn [fst snd]; field.
    - assert (o' : ~ inside (b_ml d') (b_mLb d') (b_mL d') q2) by exact o. rewrite !(get_out _ _ _ o), !(get_out _ _ _ o'). repeat split; ring. }
  destruct E as (E1 & E2 & E3 & E4 & E5). unfold O, l_ratio, l_dbrdq2. rewrite !ratio0_div, E1, E2, E3, E4, E5. change (b_tau d') with (b_tau d). repeat split; unfold Rdiv; ring.
Qed.
Print Assumptions C206_mirror.
Theorem C206_lepton_chirality : forall d q2, no_subleading d -> let d' := set_wc d (axial_reversed (b_wc d)) in let O e f := l_ratio f l_dGdq2 e q2 in
  l_dbrdq2 d' q2 = l_dbrdq2 d q2 /\ O d' l_FL_num = O d l_FL_num /\ O d' l_AFBh_num = O d l_AFBh_num /\ O d' l_AFBl_num = - O d l_AFBl_num /\ O d' l_AFBlh_num = - O d l_AFBlh_num.
Proof.
  intros d q2 n d' O.
  assert (n' : no_subleading d') by exact n.
  assert (T : forall X, let Y := match X with cL => cR | cR => cL end in perp1 (the_ff d' q2) X = perp1 (the_ff d q2) Y /\ para1 (the_ff d' q2) X = para1 (the_ff d q2) Y /\ perp0 (the_ff d' q2) X = perp0 (the_ff d q2) Y /\ para0 (the_ff d' q2) X = para0 (the_ff d q2) Y).
  { intros X. unfold the_ff, transverity_amps, l_prefactor, d'. cbn [perp1 para1 perp0 para0 set_wc b_mLb b_mL b_ff b_mb b_wc b_GF b_xi b_aem].
    unfold axial_reversed, C910pl, C910mi. unfold Cdiv. generalize (/ RtoC q2)%C. intros iq. destruct X; repeat split; ring. }
  assert (E : l_get_obs l_dGdq2 d' q2 = l_get_obs l_dGdq2 d q2 /\ l_get_obs l_FL_num d' q2 = l_get_obs l_FL_num d q2 /\ l_get_obs l_AFBh_num d' q2 = l_get_obs l_AFBh_num d q2
    /\ l_get_obs l_AFBl_num d' q2 = - l_get_obs l_AFBl_num d q2 /\ l_get_obs l_AFBlh_num d' q2 = - l_get_obs l_AFBlh_num d q2).
  { destruct (inside_dec (b_ml d) (b_mLb d) (b_mL d) q2) as [i | o].
    - assert (i' : inside (b_ml d') (b_mLb d') (b_mL d') q2) by exact i. rewrite !(get_in _ _ _ i), !(get_in _ _ _ i'). unfold K_of.
      destruct (amps_is d q2 cL n) as (a1 & a2 & a3 & a4). destruct (amps_is d q2 cR n) as (b1 & b2 & b3 & b4).
      destruct (amps_is d' q2 cL n') as (c1 & c2 & c3 & c4). destruct (amps_is d' q2 cR n') as (e1 & e2 & e3 & e4).
      destruct (T cL) as (t1 & t2 & t3 & t4). destruct (T cR) as (u1 & u2 & u3 & u4).
      change (b_alpha d') with (b_alpha d).
      unfold l_dGdq2, l_FL_num, l_AFBlh_num, l_AFBl_num, l_AFBh_num, angular_coefficients, sq. cbn [K1ss K1cc K1c K2ss K2cc K2c].
      rewrite ?a1, ?a2, ?a3, ?a4, ?b1, ?b2, ?b3, ?b4, ?c1, ?c2, ?c3, ?c4, ?e1, ?e2, ?e3, ?e4, ?t1, ?t2, ?t3, ?t4, ?u1, ?u2, ?u3, ?u4.
      repeat split; unfold Re, Cminus, Cplus, Copp, Cmult, Cconj, RtoC; cbn [fst snd]; field.
    - assert (o' : ~ inside (b_ml d') (b_mLb d') (b_mL d') q2) by exact o. rewrite !(get_out _ _ _ o), !(get_out _ _ _ o'). repeat split; ring. }
  destruct E as (E1 & E2 & E3 & E4 & E5). unfold O, l_ratio, l_dbrdq2. rewrite !ratio0_div, E1, E2, E3, E4, E5. change (b_tau d') with (b_tau d). repeat split; unfold Rdiv; ring.
Qed.
Print Assumptions C206_lepton_chirality.
(** *** the zero recoil end: with form factors that satisfy the kinematic relations f_0^A = f_perp^A and f_0^T5 = f_perp^T5 there, F_L = 1/3 and the asymmetries vanish
    for all Wilson coefficients (in the limit; the prefactor N, common to all amplitudes, vanishes at the end) *)
Theorem C206_zero_recoil : forall (M m mb alpha : R) (ff : string -> R) (wc : wckey -> C) (N : C), 0 < m < M -> let q2 := (M - m) ^ 2 in
  ff "fA0"%string = ff "fAperp"%string -> ff "fT50"%string = ff "fT5perp"%string ->
  let K := angular_coefficients (transverity_amps (helicity_amps q2 M m ff) q2 mb wc N) alpha in
  l_FL_num K = 1 / 3 * l_dGdq2 K /\ l_AFBl_num K = 0 /\ l_AFBh_num K = 0.
Proof.
  intros M m mb alpha ff wc N hm q2 fA fT K. set (ta := transverity_amps (helicity_amps q2 M m ff) q2 mb wc N) in *.
  assert (sq2 : sqrt q2 = M - m) by (unfold q2; replace ((M - m) ^ 2) with (Rsqr (M - m)) by (unfold Rsqr; ring); apply sqrt_Rsqr; lra).
  assert (P : forall X, perp1 ta X = RtoC 0 /\ perp0 ta X = RtoC 0).
  { intros X. unfold ta, transverity_amps, helicity_amps. cbn [perp1 perp0 hpV hpT h0V h0T]. fold q2.
    rewrite (Rminus_eq_0 q2), !Rmult_0_r, !sqrt_0, !Rmult_0_r, !Cmult_0_r. unfold Cminus. split; ring. }
  assert (Q : forall X, para1 ta X = (- RtoC (sqrt 2) * para0 ta X)%C).
  { intros X. unfold ta, transverity_amps, helicity_amps. cbn [para1 para0 hpA hpT5 h0A h0T5]. fold q2. rewrite sq2, fA, fT.
    rewrite !sqrt_mult by (try lra; unfold q2; nra).
    replace (ff "fAperp"%string * (M - m) / (M - m)) with (ff "fAperp"%string) by (field; lra).
    set (sp := sqrt ((M + m) ^ 2 - q2)). clearbody sp. unfold Cdiv. generalize (/ RtoC q2)%C. intros iq.
    repeat (rewrite ?RtoC_mult, ?RtoC_minus, ?RtoC_opp).
    generalize (RtoC (sqrt 2)) (RtoC sp) (RtoC (ff "fAperp"%string)) (RtoC (ff "fT5perp"%string)) (RtoC M) (RtoC m). intros. ring. }
  destruct (P cL) as (p1 & p2). destruct (P cR) as (p3 & p4).
  assert (S2 : forall z, Cmod (- RtoC (sqrt 2) * z)%C ^ 2 = 2 * Cmod z ^ 2).
  { intros z. rewrite Cmod_mult, Cmod_opp, Cmod_R, Rabs_right by (apply Rle_ge, sqrt_pos). rewrite Rpow_mult_distr, <- Rsqr_pow2, Rsqr_sqrt by lra. reflexivity. }
  destruct (C206_fractions ta alpha) as (F & T). cbv zeta in F, T. fold K in F, T.
  rewrite !Q, p1, p3, !S2, !Cmod_0 in T. rewrite p2, p4, !Cmod_0 in F.
  split; [lra | split].
  - unfold K, l_AFBl_num, angular_coefficients. cbn [K1c]. rewrite p1, p3. unfold Re, Cminus, Cplus, Copp, Cmult, RtoC, Rdiv. cbn [fst snd]. ring.
  - unfold K, l_AFBh_num, angular_coefficients. cbn [K2ss K2cc]. rewrite p1, p3, p2, p4. unfold Re, Cminus, Cplus, Copp, Cmult, RtoC, Rdiv. cbn [fst snd]. ring.
Qed.
Print Assumptions C206_zero_recoil.
(** *** with positive form factors, the dipole coefficient C7 of the same sign as C9 increases the rate, whatever C10 *)
Theorem C206_dipole_interference : forall d q2 c7 c7', no_subleading d -> inside (b_ml d) (b_mLb d) (b_mL d) q2 -> 0 < q2 -> 0 < b_mL d < b_mLb d -> 0 <= b_mb d -> 0 <= b_tau d -> (forall n, 0 <= b_ff d q2 n) ->
  (exists c9 : R, 0 <= c9 /\ b_wc d q2 Wv = RtoC c9) -> b_wc d q2 Wvp = RtoC 0 -> 0 <= c7 <= c7' ->
  let d' x := set_wc d (fun q k => match k with W7 => RtoC x | W7p => RtoC 0 | _ => b_wc d q k end) in l_dbrdq2 (d' c7) q2 <= l_dbrdq2 (d' c7') q2.
Proof.
  intros d q2 c7 c7' n i hq hm hb ht ff (c9 & h9 & E9) E9p h7 d'.
  assert (n' : forall x, no_subleading (d' x)) by (intros; exact n). assert (i' : forall x, inside (b_ml (d' x)) (b_mLb (d' x)) (b_mL (d' x)) q2) by (intros; exact i).
  unfold l_dbrdq2. change (b_tau (d' c7)) with (b_tau d). change (b_tau (d' c7')) with (b_tau d). apply Rmult_le_compat_l; [exact ht|]. rewrite !get_in by apply i'. unfold K_of.
  assert (Y : forall x, let s (f : ta12 -> chir -> C) := Cmod (f (the_ff (d' x) q2) cL) ^ 2 + Cmod (f (the_ff (d' x) q2) cR) ^ 2 in
    l_dGdq2 (angular_coefficients (get_transverity_amps (d' x) q2) (b_alpha (d' x))) = s perp1 + s para1 + (s perp0 + s para0)).
  { intros x s. destruct (C206_fractions (get_transverity_amps (d' x) q2) (b_alpha (d' x))) as (F & T). cbv zeta in F, T.
    destruct (amps_is (d' x) q2 cL (n' x)) as (a1 & a2 & a3 & a4). destruct (amps_is (d' x) q2 cR (n' x)) as (b1 & b2 & b3 & b4).
    rewrite a1, a2, b1, b2 in T. rewrite a3, a4, b3, b4 in F. unfold s. lra. }
  rewrite !Y. cbv zeta.
  (* every amplitude is k ((c9 + a) h + c7 g) up to a common sign, h, g >= 0, a independent of c7 *)
  assert (G : forall (p a : C) (h g : R), 0 <= h -> 0 <= g -> forall x y, 0 <= x <= y ->
    Cmod (p * ((RtoC c9 - a) * RtoC h + RtoC (x * g)))%C ^ 2 + Cmod (p * ((RtoC c9 + a) * RtoC h + RtoC (x * g)))%C ^ 2 <= Cmod (p * ((RtoC c9 - a) * RtoC h + RtoC (y * g)))%C ^ 2 + Cmod (p * ((RtoC c9 + a) * RtoC h + RtoC (y * g)))%C ^ 2).
  { intros p a h g h0 g0 x y hxy. rewrite !Cmod_mult, !Rpow_mult_distr, <- !Rmult_plus_distr_l. apply Rmult_le_compat_l; [apply pow2_ge_0|].
    rewrite !cmod_sq. destruct a as [u v]. unfold Cminus, Cplus, Copp, Cmult, RtoC. cbn [fst snd].
    assert (X : c9 * h + x * g <= c9 * h + y * g) by (pose proof (Rmult_le_compat_r g x y g0 ltac:(lra)); lra).
    assert (X0 : 0 <= c9 * h + x * g) by (pose proof (Rmult_le_pos _ _ h9 h0); pose proof (Rmult_le_pos x g ltac:(lra) g0); lra).
    pose proof (pow_incr _ _ 2 (conj X0 X)) as Z. nra. }
  set (w := b_wc d q2) in *. set (a := w Wa). set (ap := w Wap).
  assert (A : forall (f : ta12 -> chir -> C), In f [perp1; para1; perp0; para0] -> exists (p e : C) (h g : R), 0 <= h /\ 0 <= g /\ forall x, f (the_ff (d' x) q2) cL = (p * ((RtoC c9 - e) * RtoC h + RtoC (x * g)))%C /\ f (the_ff (d' x) q2) cR = (p * ((RtoC c9 + e) * RtoC h + RtoC (x * g)))%C).
  { set (N := l_prefactor d q2). set (sm := sqrt ((b_mLb d - b_mL d) ^ 2 - q2)). set (sp := sqrt ((b_mLb d + b_mL d) ^ 2 - q2)).
    assert (s2m : sqrt (2 * ((b_mLb d - b_mL d) ^ 2 - q2)) = sqrt 2 * sm) by (unfold sm; apply sqrt_mult; [lra | destruct i; lra]).
    assert (s2p : sqrt (2 * ((b_mLb d + b_mL d) ^ 2 - q2)) = sqrt 2 * sp) by (unfold sp; apply sqrt_mult; [lra | destruct i; nra]).
    assert (s0 : 0 <= sm) by apply sqrt_pos. assert (s1 : 0 <= sp) by apply sqrt_pos. pose proof (sqrt_pos 2) as r2. pose proof (sqrt_lt_R0 _ hq) as rq.
    assert (r0 : forall y : string, 0 <= b_ff d q2 y) by exact ff. assert (iq : 0 < / q2) by now apply Rinv_0_lt_compat. assert (irq : 0 < / sqrt q2) by now apply Rinv_0_lt_compat.
    set (M := b_mLb d + b_mL d) in *. set (m := b_mLb d - b_mL d) in *. assert (hM : 0 < M) by (unfold M; lra). assert (hm' : 0 < m) by (unfold m; lra).
    assert (Q : forall x y, 0 <= x -> 0 <= y -> 0 <= x * y) by (intros; now apply Rmult_le_pos).
    assert (EL : forall x (f : ta12 -> chir -> C), f (the_ff (d' x) q2) = f (transverity_amps (helicity_amps q2 (b_mLb d) (b_mL d) (b_ff d q2)) q2 (b_mb d) (fun k => match k with W7 => RtoC x | W7p => RtoC 0 | _ => w k end) N)) by reflexivity.
    intros f [<- | [<- | [<- | [<- | []]]]].
    - exists (- N * RtoC (sqrt 2))%C, (a + ap)%C, (b_ff d q2 "fVperp"%string * (sqrt 2 * sm)), (2 * b_mb d * / q2 * (b_ff d q2 "fTperp"%string * M * (sqrt 2 * sm))).
      split; [auto|]. split; [repeat apply Q; auto; lra|]. intros x. rewrite !(EL x perp1). unfold transverity_amps, helicity_amps; cbn [perp1 para1 perp0 para0 hpV hpT h0V h0T hpA hpT5 h0A h0T5]; unfold C910pl, C910mi; fold M m; rewrite E9, E9p, ?s2m, ?s2p; fold sm sp; change (w Wa) with a; change (w Wap) with ap. unfold Cdiv. rewrite <- RtoC_inv by lra.
      rewrite ?RtoC_mult, ?RtoC_opp. split; ring.
    - exists (N * RtoC (sqrt 2))%C, (a - ap)%C, (b_ff d q2 "fAperp"%string * (sqrt 2 * sp)), (2 * b_mb d * / q2 * (b_ff d q2 "fT5perp"%string * m * (sqrt 2 * sp))).
      split; [auto|]. split; [repeat apply Q; auto; lra|]. intros x. rewrite !(EL x para1). unfold transverity_amps, helicity_amps; cbn [perp1 para1 perp0 para0 hpV hpT h0V h0T hpA hpT5 h0A h0T5]; unfold C910pl, C910mi; fold M m; rewrite E9, E9p, ?s2m, ?s2p; fold sm sp; change (w Wa) with a; change (w Wap) with ap. unfold Cdiv. rewrite <- RtoC_inv by lra.
      rewrite ?RtoC_mult, ?RtoC_opp. split; ring.
    - exists (N * RtoC (sqrt 2))%C, (a + ap)%C, (b_ff d q2 "fV0"%string * M * / sqrt q2 * sm), (2 * b_mb d * / q2 * (b_ff d q2 "fT0"%string * sqrt q2 * sm)).
      split; [repeat apply Q; auto; lra|]. split; [repeat apply Q; auto; lra|]. intros x. rewrite !(EL x perp0). unfold transverity_amps, helicity_amps; cbn [perp1 para1 perp0 para0 hpV hpT h0V h0T hpA hpT5 h0A h0T5]; unfold C910pl, C910mi; fold M m; rewrite E9, E9p, ?s2m, ?s2p; fold sm sp; change (w Wa) with a; change (w Wap) with ap. unfold Cdiv, Rdiv. rewrite <- RtoC_inv by lra.
      rewrite ?RtoC_mult, ?RtoC_opp. split; ring.
    - exists (- N * RtoC (sqrt 2))%C, (a - ap)%C, (b_ff d q2 "fA0"%string * m * / sqrt q2 * sp), (2 * b_mb d * / q2 * (b_ff d q2 "fT50"%string * sqrt q2 * sp)).
      split; [repeat apply Q; auto; lra|]. split; [repeat apply Q; auto; lra|]. intros x. rewrite !(EL x para0). unfold transverity_amps, helicity_amps; cbn [perp1 para1 perp0 para0 hpV hpT h0V h0T hpA hpT5 h0A h0T5]; unfold C910pl, C910mi; fold M m; rewrite E9, E9p, ?s2m, ?s2p; fold sm sp; change (w Wa) with a; change (w Wap) with ap. unfold Cdiv, Rdiv. rewrite <- RtoC_inv by lra.
      rewrite ?RtoC_mult, ?RtoC_opp. split; ring. }
  assert (M : forall f, In f [perp1; para1; perp0; para0] -> Cmod (f (the_ff (d' c7) q2) cL) ^ 2 + Cmod (f (the_ff (d' c7) q2) cR) ^ 2 <= Cmod (f (the_ff (d' c7') q2) cL) ^ 2 + Cmod (f (the_ff (d' c7') q2) cR) ^ 2).
  { intros f hf. destruct (A f hf) as (p & e & h & g & h0 & g0 & E). destruct (E c7) as (-> & ->). destruct (E c7') as (-> & ->). now apply G. }
  pose proof (M perp1 ltac:(cbn; tauto)). pose proof (M para1 ltac:(cbn; tauto)). pose proof (M perp0 ltac:(cbn; tauto)). pose proof (M para0 ltac:(cbn; tauto)). lra.
Qed.
Print Assumptions C206_dipole_interference.

(** ** C207: the distribution in all three angles. c, s: cosine and sine of the angle of the lepton; h, q: of the angle of the proton; cp, sp: of the azimuth *)
Definition three_angles (K : kcoef) (c s h q cp sp : R) : R := two_angles K c h + (K3sc K * s * c + K3s K * s) * q * sp + (K4sc K * s * c + K4s K * s) * q * cp.
(** the coefficients with the real parts of the interferences in those of the cosine of the azimuth *)
Definition real_parts (ta : ta12) (alpha : R) : kcoef :=
  let K := angular_coefficients ta alpha in
  Kcoef (K1ss K) (K1cc K) (K1c K) (K2ss K) (K2cc K) (K2c K) (K3sc K) (K3s K)
    (alpha / sqrt 2 * Re (perp1 ta cR * Cconj (para0 ta cR) - para1 ta cR * Cconj (perp0 ta cR) + perp1 ta cL * Cconj (para0 ta cL) - para1 ta cL * Cconj (perp0 ta cL))%C)
    (alpha / sqrt 2 * Re (perp1 ta cR * Cconj (perp0 ta cR) - para1 ta cR * Cconj (para0 ta cR) - perp1 ta cL * Cconj (perp0 ta cL) + para1 ta cL * Cconj (para0 ta cL))%C).
(** the square of (u, w) with spin density (1 + alpha n.sigma) / 2; kk = k^2 = 1/2 *)
Definition spin_term (kk k alpha h q cp sp s f : R) (u w : C) : R :=
  (1 + alpha * h) / 2 * (kk * s ^ 2 * (fst u ^ 2 + snd u ^ 2)) + (1 - alpha * h) / 2 * (f ^ 2 / 4 * (fst w ^ 2 + snd w ^ 2))
  + alpha * q * k * s * f / 2 * (cp * (fst u * fst w + snd u * snd w) - sp * (snd u * fst w - fst u * snd w)).
Definition spin_term' (kk k alpha h q cp sp s f : R) (u w : C) : R :=
  (1 + alpha * h) / 2 * (f ^ 2 / 4 * (fst u ^ 2 + snd u ^ 2)) + (1 - alpha * h) / 2 * (kk * s ^ 2 * (fst w ^ 2 + snd w ^ 2))
  + alpha * q * k * s * f / 2 * (cp * (fst u * fst w + snd u * snd w) - sp * (snd u * fst w - fst u * snd w)).
Lemma density alpha h q cp sp e : Rabs alpha <= 1 -> h ^ 2 + q ^ 2 = 1 -> cp ^ 2 + sp ^ 2 = 1 -> e ^ 2 = 1 ->
  0 <= (1 + alpha * h) / 2 /\ 0 <= (1 - alpha * h) / 2 /\ (e * alpha * q / 2 * cp) ^ 2 + (e * alpha * q / 2 * sp) ^ 2 <= (1 + alpha * h) / 2 * ((1 - alpha * h) / 2).
Proof.
  intros a hq cs he. apply Rabs_le_between in a.
  assert (a2 : alpha ^ 2 <= 1) by nra. assert (h2 : h ^ 2 <= 1) by (pose proof (pow2_ge_0 q); lra).
  assert (x : (alpha * h) ^ 2 <= 1).
  { replace 1 with (1 * 1) by ring. rewrite Rpow_mult_distr. apply Rmult_le_compat; auto using pow2_ge_0. }
  assert (y : -1 <= alpha * h <= 1) by (split; nra).
  repeat split; try lra.
  replace ((e * alpha * q / 2 * cp) ^ 2 + (e * alpha * q / 2 * sp) ^ 2) with (e ^ 2 * (alpha ^ 2 * (q ^ 2 * (cp ^ 2 + sp ^ 2))) / 4) by field.
  rewrite he, cs, !Rmult_1_l, Rmult_1_r. replace (q ^ 2) with (1 - h ^ 2) by lra.
  replace ((1 + alpha * h) / 2 * ((1 - alpha * h) / 2)) with ((1 - alpha ^ 2 * h ^ 2) / 4) by field. lra.
Qed.
Lemma spin_pos k alpha h q cp sp s f e u w : Rabs alpha <= 1 -> h ^ 2 + q ^ 2 = 1 -> cp ^ 2 + sp ^ 2 = 1 -> e ^ 2 = 1 ->
  0 <= spin_term (k ^ 2) (e * k) alpha h q cp sp s f u w /\ 0 <= spin_term' (k ^ 2) (e * k) alpha h q cp sp s f u w.
Proof.
  intros a hq cs he. destruct (density alpha h q cp sp e a hq cs he) as (d1 & d2 & d3). split.
  - pose proof (herm _ _ _ _ (k * s * fst u) (k * s * snd u) (f / 2 * fst w) (f / 2 * snd w) d1 d2 d3) as H. unfold spin_term. eapply Rle_trans; [exact H|]. right. field.
  - pose proof (herm _ _ _ _ (f / 2 * fst u) (f / 2 * snd u) (k * s * fst w) (k * s * snd w) d1 d2 d3) as H. unfold spin_term'. eapply Rle_trans; [exact H|]. right. field.
Qed.
Lemma real_parts_sum ta alpha c s h q cp sp : c ^ 2 + s ^ 2 = 1 -> let k := / sqrt 2 in
  let half X eta := spin_term (1 / 2) (eta * k) alpha h q cp sp s (1 + eta * c) (perp0 ta X + para0 ta X)%C (perp1 ta X - para1 ta X)%C
    + spin_term' (1 / 2) (eta * k) alpha h q cp sp s (1 - eta * c) (perp1 ta X + para1 ta X)%C (perp0 ta X - para0 ta X)%C in
  three_angles (real_parts ta alpha) c s h q cp sp = half cR 1 + half cL (-1).
Proof.
  intros cs k half. destruct ta as [p1 a1 p0 a0]. unfold three_angles, two_angles, real_parts, angular_coefficients, half, spin_term, spin_term'. cbn [K1ss K1cc K1c K2ss K2cc K2c K3sc K3s K4sc K4s perp1 para1 perp0 para0]. comps.
  destruct (p1 cR), (p1 cL), (a1 cR), (a1 cL), (p0 cR), (p0 cL), (a0 cR), (a0 cL). cbn [fst snd]. unfold Rdiv at 6 7 8 9 10. change (/ sqrt 2) with k. unfold Rdiv.
  change (/ sqrt 2) with k. clearbody k. assert (E : c ^ 2 = 1 - s ^ 2) by lra. clear cs.
  field_simplify_eq. repeat match goal with |- context[c ^ 3] => replace (c ^ 3) with (c * c ^ 2) by ring end. rewrite ?E. ring.
Qed.
Lemma isq2 : (/ sqrt 2) ^ 2 = 1 / 2. Proof. rewrite pow_inv, <- Rsqr_pow2, Rsqr_sqrt by lra. lra. Qed.
Theorem C207_real_parts_partial : forall ta alpha c s h q cp sp, Rabs alpha <= 1 -> c ^ 2 + s ^ 2 = 1 -> h ^ 2 + q ^ 2 = 1 -> cp ^ 2 + sp ^ 2 = 1 -> 0 <= three_angles (real_parts ta alpha) c s h q cp sp.
Proof.
  intros ta alpha c s h q cp sp a cs hq cps. rewrite (real_parts_sum ta alpha c s h q cp sp cs). cbv beta zeta. rewrite <- isq2.
  pose proof (fun f e u w => spin_pos (/ sqrt 2) alpha h q cp sp s f e u w a hq cps) as P.
  assert (e1 : 1 ^ 2 = 1) by ring. assert (e2 : (-1) ^ 2 = 1) by ring.
  apply Rplus_le_le_0_compat; apply Rplus_le_le_0_compat.
  - exact (proj1 (P _ _ _ _ e1)).
  - exact (proj2 (P _ _ _ _ e1)).
  - exact (proj1 (P _ _ _ _ e2)).
  - exact (proj2 (P _ _ _ _ e2)).
Qed.
Print Assumptions C207_real_parts_partial.
(** where the cosine of the azimuth vanishes, the distribution of the code is the same *)
Theorem C207_in_plane_partial : forall ta alpha c s h q sp, Rabs alpha <= 1 -> c ^ 2 + s ^ 2 = 1 -> h ^ 2 + q ^ 2 = 1 -> sp ^ 2 = 1 -> 0 <= three_angles (angular_coefficients ta alpha) c s h q 0 sp.
Proof.
  intros ta alpha c s h q sp a cs hq sp1. pose proof (C207_real_parts_partial ta alpha c s h q 0 sp a cs hq ltac:(lra)) as H.
  unfold three_angles, two_angles in *. unfold real_parts in H. cbn [K1ss K1cc K1c K2ss K2cc K2c K3sc K3s K4sc K4s] in H. rewrite Rmult_0_r in *. exact H.
Qed.
Print Assumptions C207_in_plane_partial.
(** the distribution with the coefficients of the code takes negative values *)
Theorem C207_refuted : ~ (forall ta alpha c s h q cp sp, Rabs alpha <= 1 -> c ^ 2 + s ^ 2 = 1 -> h ^ 2 + q ^ 2 = 1 -> cp ^ 2 + sp ^ 2 = 1 -> 0 <= three_angles (angular_coefficients ta alpha) c s h q cp sp).
Proof.
  intros H.
  specialize (H (Ta12 (fun X => match X with cR => Ci | cL => RtoC 0 end) (fun X => match X with cR => Ci | cL => RtoC 0 end) (fun X => match X with cR => RtoC (1 / 2) | cL => RtoC 0 end)
     (fun X => match X with cR => RtoC (- (1 / 2)) | cL => RtoC 0 end)) 1 0 1 0 1 (- / sqrt 2) (/ sqrt 2)).
  pose proof isq2 as E. assert (H0 := H ltac:(rewrite Rabs_R1; lra) ltac:(ring) ltac:(ring) ltac:(lra)). clear H. revert H0.
  unfold three_angles, two_angles, angular_coefficients. cbn [K1ss K1cc K1c K2ss K2cc K2c K3sc K3s K4sc K4s perp1 para1 perp0 para0]. comps. unfold Ci. cbn [fst snd]. unfold Rdiv. set (k := / sqrt 2) in *. clearbody k.
  intros H0. apply (Rle_not_lt _ _ H0). match goal with |- ?x < 0 => replace x with (3 / 4 - 2 * k ^ 2) by field end. rewrite E. lra.
Qed.
Print Assumptions C207_refuted.

(** ** C208: Lambda_b -> Lambda(1520) l l, strong decay of the Lambda(1520). c, s: cosine and sine of the angle of the lepton; h, q: of the angle of the kaon; cp, sp: of the azimuth *)
Definition distribution32 (L : lcoef) (c s h q cp sp : R) : R :=
  h ^ 2 * (L1c L * c + L1cc L * c ^ 2 + L1ss L * s ^ 2) + q ^ 2 * (L2c L * c + L2cc L * c ^ 2 + L2ss L * s ^ 2) + q ^ 2 * (L3ss L * s ^ 2 * cp ^ 2 + L4ss L * s ^ 2 * sp * cp)
  + q * h * cp * (L5s L * s + L5sc L * s * c) + q * h * sp * (L6s L * s + L6sc L * s * c).
(** the amplitudes for the two helicities of the Lambda_b (sg = 1 or -1) and of the nucleon, for leptons of one chirality (e = 1 for R, -1 for L) *)
Definition F1 (ta : ta32) (X : chir) (e sg c s h q cp sp : R) : C :=
  let b := (Bperp1 ta X + RtoC sg * Bpara1 ta X)%C in let a := (Aperp1 ta X - RtoC sg * Apara1 ta X)%C in let z := (Aperp0 ta X - RtoC sg * Apara0 ta X)%C in
  let ph : C := (cp, sp) in let ph' : C := (cp, - sp) in
  (RtoC (sqrt 3 / 2 * q * (1 + sg * e * c) / 2) * (if Rlt_dec 0 sg then ph' else ph) * b + RtoC (sg * e * h * s * sqrt 2 / 2) * z - RtoC (q / 2 * (1 - sg * e * c) / 2) * (if Rlt_dec 0 sg then ph else ph') * a)%C.
Definition F2 (ta : ta32) (X : chir) (e sg c s h q cp sp : R) : C :=
  let a := (Aperp1 ta X - RtoC sg * Apara1 ta X)%C in let z := (Aperp0 ta X - RtoC sg * Apara0 ta X)%C in
  let ph : C := (cp, sp) in let ph' : C := (cp, - sp) in
  (RtoC (q / 2 * s * sqrt 2 / 2) * z + RtoC (sg * e * h * (1 - sg * e * c) / 2) * (if Rlt_dec 0 sg then ph else ph') * a)%C.
Definition poly32 (e r2 r3 c s h q cp sp : R) (Bp Ba Ap Aa Zp Za : C) : R :=
  let re (a b : C) := fst a * fst b + snd a * snd b in let im (a b : C) := snd a * fst b - fst a * snd b in let ab a := re a a in
  h ^ 2 * (2 * e * re Ap Aa * c + (ab Aa + ab Ap) * c ^ 2 + (2 * (ab Za + ab Zp) + ab Aa + ab Ap) / 2 * s ^ 2)
  + q ^ 2 * (e / 2 * (re Ap Aa + 3 * re Bp Ba) * c + (ab Aa + ab Ap + 3 * (ab Ba + ab Bp)) / 4 * c ^ 2
     + (2 * ab Za + ab Aa + 2 * ab Zp + ab Ap + 3 * (ab Ba + ab Bp) - 2 * r3 * re Ba Aa + 2 * r3 * re Bp Ap) / 8 * s ^ 2)
  + q ^ 2 * (r3 / 2 * (re Ba Aa - re Bp Ap) * s ^ 2 * cp ^ 2 + r3 / 2 * (im Bp Aa - im Ba Ap) * s ^ 2 * sp * cp)
  + q * h * cp * (- e * (r3 * r2 / 2) * (re Bp Za - re Ba Zp) * s + (r3 * r2 / 2) * (re Bp Zp - re Ba Za) * s * c)
  + q * h * sp * (- e * (r3 * r2 / 2) * (im Ba Za - im Bp Zp) * s - (r3 * r2 / 2) * (im Bp Za - im Ba Zp) * s * c).
Lemma sqrt32 : sqrt (3 / 2) = sqrt 3 * sqrt 2 / 2.
Proof.
  rewrite sqrt_div_alt by lra. assert (h : sqrt 2 * sqrt 2 = 2) by (apply sqrt_sqrt; lra). assert (h0 : 0 < sqrt 2) by (apply sqrt_lt_R0; lra).
  apply Rmult_eq_reg_r with (sqrt 2); [|lra]. replace (sqrt 3 * sqrt 2 / 2 * sqrt 2) with (sqrt 3 * (sqrt 2 * sqrt 2) / 2) by field. rewrite h. field. lra.
Qed.
Lemma poly_split ta br c s h q cp sp : let P X e := poly32 e (sqrt 2) (sqrt 3) c s h q cp sp (Bperp1 ta X) (Bpara1 ta X) (Aperp1 ta X) (Apara1 ta X) (Aperp0 ta X) (Apara0 ta X) in
  distribution32 (angular_coefficients32 ta br) c s h q cp sp = br * (P cR 1 + P cL (-1)).
Proof.
  intros P. unfold P, distribution32, angular_coefficients32, poly32. cbn [L1c L1cc L1ss L2c L2cc L2ss L3ss L4ss L5s L5sc L6s L6sc]. rewrite sqrt32. comps.
  generalize (sqrt 2) (sqrt 3). intros. field.
Qed.
Lemma chir_sum ta X e c s h q cp sp : e = 1 \/ e = -1 -> c ^ 2 + s ^ 2 = 1 -> h ^ 2 + q ^ 2 = 1 -> cp ^ 2 + sp ^ 2 = 1 ->
  poly32 e (sqrt 2) (sqrt 3) c s h q cp sp (Bperp1 ta X) (Bpara1 ta X) (Aperp1 ta X) (Apara1 ta X) (Aperp0 ta X) (Apara0 ta X)
  = Cmod (F1 ta X e 1 c s h q cp sp) ^ 2 + Cmod (F2 ta X e 1 c s h q cp sp) ^ 2 + Cmod (F1 ta X e (-1) c s h q cp sp) ^ 2 + Cmod (F2 ta X e (-1) c s h q cp sp) ^ 2.
Proof.
  intros he cs hq cps. rewrite !cmod_sq. unfold F1, F2. destruct (Rlt_dec 0 1) as [_|n]; [|lra]. destruct (Rlt_dec 0 (-1)) as [n|_]; [lra|]. cbv zeta.
  destruct (Bperp1 ta X) as [x1 y1], (Bpara1 ta X) as [x2 y2], (Aperp1 ta X) as [x3 y3], (Apara1 ta X) as [x4 y4], (Aperp0 ta X) as [x5 y5], (Apara0 ta X) as [x6 y6].
  unfold poly32. unfold Cminus, Cplus, Cmult, Copp, RtoC. cbn [fst snd].
  assert (R2 : sqrt 2 * sqrt 2 = 2) by (apply sqrt_sqrt; lra). assert (R3 : sqrt 3 * sqrt 3 = 3) by (apply sqrt_sqrt; lra).
  revert R2 R3. generalize (sqrt 2) (sqrt 3). intros r2 r3 R2 R3.
  assert (S1 : s * s = 1 - c * c) by lra. assert (S2 : q * q = 1 - h * h) by lra. assert (S3 : sp * sp = 1 - cp * cp) by lra. clear cs hq cps.
  assert (D : forall x, x / 2 = x * / 2) by reflexivity.
  destruct he as [-> | ->].
  - apply Rmult_eq_reg_l with 16; [|lra]. field [R2 R3 S1 S2 S3].
  - apply Rmult_eq_reg_l with 16; [|lra]. field [R2 R3 S1 S2 S3].
Qed.
(** the distribution is an incoherent sum over the chirality of the leptons and the helicities of Lambda_b and nucleon; br is half of BR(Lambda(1520) -> N Kbar) *)
Theorem C208_helicity_sum : forall ta br c s h q cp sp, c ^ 2 + s ^ 2 = 1 -> h ^ 2 + q ^ 2 = 1 -> cp ^ 2 + sp ^ 2 = 1 ->
  let A X e := Cmod (F1 ta X e 1 c s h q cp sp) ^ 2 + Cmod (F2 ta X e 1 c s h q cp sp) ^ 2 + Cmod (F1 ta X e (-1) c s h q cp sp) ^ 2 + Cmod (F2 ta X e (-1) c s h q cp sp) ^ 2 in
  distribution32 (angular_coefficients32 ta br) c s h q cp sp = br * (A cR 1 + A cL (-1)).
Proof. intros ta br c s h q cp sp cs hq cps A. rewrite poly_split. cbv zeta. rewrite !chir_sum by (auto; fail). reflexivity. Qed.
Print Assumptions C208_helicity_sum.
Theorem C208_nonneg : forall ta br c s h q cp sp, 0 <= br -> c ^ 2 + s ^ 2 = 1 -> h ^ 2 + q ^ 2 = 1 -> cp ^ 2 + sp ^ 2 = 1 -> 0 <= distribution32 (angular_coefficients32 ta br) c s h q cp sp.
Proof.
  intros ta br c s h q cp sp b cs hq cps. rewrite C208_helicity_sum by assumption. cbv zeta. apply Rmult_le_pos; [exact b|]. repeat apply Rplus_le_le_0_compat; apply pow2_ge_0.
Qed.
Print Assumptions C208_nonneg.
(** rates and asymmetries are the integrals of the distribution over the angles, averaged over the decay and its conjugate; in particular the hadronic asymmetries vanish *)
Lemma RInt_azimuth (k0 k1 k2 k3 k4 : R) : RInt (fun x => k0 + k1 * cos x ^ 2 + k2 * (sin x * cos x) + k3 * cos x + k4 * sin x) 0 (2 * PI) = 2 * PI * k0 + PI * k1.
Proof.
  transitivity ((fun x => k0 * x + k1 * (x + sin x * cos x) / 2 + k2 * sin x ^ 2 / 2 + k3 * sin x - k4 * cos x) (2 * PI) - (fun x => k0 * x + k1 * (x + sin x * cos x) / 2 + k2 * sin x ^ 2 / 2 + k3 * sin x - k4 * cos x) 0).
  - apply is_RInt_unique. apply (is_RInt_derive (fun x => k0 * x + k1 * (x + sin x * cos x) / 2 + k2 * sin x ^ 2 / 2 + k3 * sin x - k4 * cos x)).
    + intros x _. auto_derive; [exact Logic.I |]. pose proof (sin2_cos2 x) as E. unfold Rsqr in E. assert (S1 : sin x * sin x = 1 - cos x * cos x) by lra. change (@eq R) with (@eq R). match goal with |- ?a = ?b => change (@eq R a b) end. field [S1].
    + intros x _. apply (ex_derive_continuous (fun x => k0 + k1 * cos x ^ 2 + k2 * (sin x * cos x) + k3 * cos x + k4 * sin x)). auto_derive. exact Logic.I.
  - cbv beta. rewrite sin_2PI, cos_2PI, sin_0, cos_0. match goal with |- ?a = ?b => change (@eq R a b) end. field.
Qed.
Definition quadrant32 (L : lcoef) (c1 c2 h1 h2 : R) : R :=
  3 / (8 * PI) * RInt (fun c => RInt (fun h => RInt (fun phi => distribution32 L c (sqrt (1 - c ^ 2)) h (sqrt (1 - h ^ 2)) (cos phi) (sin phi)) 0 (2 * PI)) h1 h2) c1 c2.
Lemma RInt_ext_in (f g : R -> R) a b : a <= b -> (forall x, a <= x <= b -> f x = g x) -> RInt f a b = RInt g a b.
Proof. intros l e. apply RInt_ext. intros x. rewrite Rmin_left, Rmax_right by exact l. intros i. apply e. lra. Qed.
Lemma quadrant32_is L c1 c2 h1 h2 : -1 <= c1 <= c2 -> c2 <= 1 -> -1 <= h1 <= h2 -> h2 <= 1 -> quadrant32 L c1 c2 h1 h2 =
  let H := (h2 ^ 3 - h1 ^ 3) / 3 in let Q := (h2 - h1) - H in let cc := (c2 ^ 3 - c1 ^ 3) / 3 in let ss := (c2 - c1) - cc in let c := (c2 ^ 2 - c1 ^ 2) / 2 in
  3 / 4 * (H * (L1c L * c + L1cc L * cc + L1ss L * ss) + Q * (L2c L * c + L2cc L * cc + L2ss L * ss + L3ss L * ss / 2)).
Proof.
  intros hc hc2 hh hh2. unfold quadrant32. cbv zeta. pose proof PI_neq0 as P0.
  set (H := (h2 ^ 3 - h1 ^ 3) / 3). set (Q := (h2 - h1) - H).
  rewrite (RInt_ext_in _ (fun c => 2 * PI * (H * L1ss L + Q * (L2ss L + L3ss L / 2)) + 2 * PI * (H * L1c L + Q * L2c L) * c + 2 * PI * (H * (L1cc L - L1ss L) + Q * (L2cc L - L2ss L - L3ss L / 2)) * c ^ 2)).
  - rewrite RInt_poly. field. exact P0.
  - lra.
  - intros c ic. set (X := L1c L * c + L1cc L * c ^ 2 + L1ss L * (1 - c ^ 2)). set (Y := L2c L * c + L2cc L * c ^ 2 + L2ss L * (1 - c ^ 2) + L3ss L / 2 * (1 - c ^ 2)).
    assert (sc : sqrt (1 - c ^ 2) ^ 2 = 1 - c ^ 2) by (rewrite <- Rsqr_pow2; apply Rsqr_sqrt; nra).
    rewrite (RInt_ext_in _ (fun h => 2 * PI * Y + 0 * h + 2 * PI * (X - Y) * h ^ 2)).
    + rewrite RInt_poly. unfold Q, H, X, Y. field.
    + lra.
    + intros h ih. assert (sh : sqrt (1 - h ^ 2) ^ 2 = 1 - h ^ 2) by (rewrite <- Rsqr_pow2; apply Rsqr_sqrt; nra).
      set (s := sqrt (1 - c ^ 2)) in *. set (q := sqrt (1 - h ^ 2)) in *.
      rewrite (RInt_ext' _ (fun x => (h ^ 2 * X + q ^ 2 * (L2c L * c + L2cc L * c ^ 2 + L2ss L * s ^ 2)) + (q ^ 2 * L3ss L * s ^ 2) * cos x ^ 2 + (q ^ 2 * L4ss L * s ^ 2) * (sin x * cos x)
         + (q * h * (L5s L * s + L5sc L * s * c)) * cos x + (q * h * (L6s L * s + L6sc L * s * c)) * sin x)) by (intros x; unfold distribution32, X; rewrite sc; ring).
      rewrite RInt_azimuth, sh, sc. unfold X, Y. field.
Qed.
Theorem C208_moments : forall L Lc, let Q c1 c2 h1 h2 := (quadrant32 L c1 c2 h1 h2 + quadrant32 Lc c1 c2 h1 h2) / 2 in
  m_dGdq2 L Lc = Q (-1) 1 (-1) 1 /\ m_AFBl_num L Lc = Q 0 1 (-1) 1 - Q (-1) 0 (-1) 1
  /\ m_AFBh L Lc = Q (-1) 1 0 1 - Q (-1) 1 (-1) 0 /\ m_AFBlh L Lc = Q 0 1 0 1 - Q (-1) 0 0 1 - Q 0 1 (-1) 0 + Q (-1) 0 (-1) 0.
Proof. intros L Lc Q. unfold Q. rewrite !quadrant32_is by lra. unfold m_dGdq2, m_AFBl_num, m_AFBh, m_AFBlh. repeat split; field. Qed.
Print Assumptions C208_moments.
(** the rate is the sum of the squares of the transversity amplitudes, that of longitudinal dileptons the sum over those with index 0 *)
Theorem C208_fractions : forall ta tac br, let L := angular_coefficients32 ta br in let Lc := angular_coefficients32 tac br in
  let s (t : ta32) (f : ta32 -> chir -> C) := Cmod (f t cL) ^ 2 + Cmod (f t cR) ^ 2 in let av f := (s ta f + s tac f) / 2 in
  m_FL_num L Lc = br * (av Aperp0 + av Apara0) /\ m_dGdq2 L Lc = br * (av Aperp0 + av Apara0 + av Aperp1 + av Apara1 + av Bperp1 + av Bpara1).
Proof.
  intros ta tac br L Lc s av. unfold L, Lc, av, s, angular_coefficients32, m_FL_num, m_dGdq2, sq. cbn [L1c L1cc L1ss L2c L2cc L2ss L3ss]. split; field.
Qed.
Lemma L_bounds ta tac br : 0 <= br -> let L := angular_coefficients32 ta br in let Lc := angular_coefficients32 tac br in
  0 <= m_FL_num L Lc <= m_dGdq2 L Lc /\ Rabs (m_AFBl_num L Lc) <= 3 / 4 * (m_dGdq2 L Lc - m_FL_num L Lc).
Proof.
  intros b L Lc. destruct (C208_fractions ta tac br) as (F & T). cbv zeta in F, T. fold L Lc in F, T. rewrite F, T.
  assert (p : forall t (f : ta32 -> chir -> C) X, 0 <= Cmod (f t X) ^ 2) by (intros; apply pow2_ge_0).
  split; [split|].
  - pose proof (p ta Aperp0). pose proof (p ta Apara0). pose proof (p tac Aperp0). pose proof (p tac Apara0). apply Rmult_le_pos; [exact b|].
    pose proof (p ta Aperp0 cL); pose proof (p ta Apara0 cL); pose proof (p tac Aperp0 cL); pose proof (p tac Apara0 cL); pose proof (p ta Aperp0 cR); pose proof (p ta Apara0 cR); pose proof (p tac Aperp0 cR); pose proof (p tac Apara0 cR). lra.
  - apply Rmult_le_compat_l; [exact b|].
    pose proof (p ta Aperp1 cL); pose proof (p ta Apara1 cL); pose proof (p tac Aperp1 cL); pose proof (p tac Apara1 cL); pose proof (p ta Aperp1 cR); pose proof (p ta Apara1 cR); pose proof (p tac Aperp1 cR); pose proof (p tac Apara1 cR).
    pose proof (p ta Bperp1 cL); pose proof (p ta Bpara1 cL); pose proof (p tac Bperp1 cL); pose proof (p tac Bpara1 cL); pose proof (p ta Bperp1 cR); pose proof (p ta Bpara1 cR); pose proof (p tac Bperp1 cR); pose proof (p tac Bpara1 cR). lra.
  - set (re t X := Re (Aperp1 t X * Cconj (Apara1 t X))%C + Re (Bperp1 t X * Cconj (Bpara1 t X))%C).
    assert (E : m_AFBl_num L Lc = br * (3 / 4 * (re ta cR - re ta cL + re tac cR - re tac cL))).
    { unfold m_AFBl_num, L, Lc, angular_coefficients32, re. cbn [L1c L2c]. field. }
    rewrite E, Rabs_mult, (Rabs_right br) by lra.
    assert (G : forall t X, 2 * Rabs (re t X) <= Cmod (Aperp1 t X) ^ 2 + Cmod (Apara1 t X) ^ 2 + Cmod (Bperp1 t X) ^ 2 + Cmod (Bpara1 t X) ^ 2).
    { intros t X. unfold re. pose proof (re_le (Aperp1 t X) (Apara1 t X)) as A. pose proof (re_le (Bperp1 t X) (Bpara1 t X)) as B. unfold sq in *.
      pose proof (Rabs_triang (Re (Aperp1 t X * Cconj (Apara1 t X))%C) (Re (Bperp1 t X * Cconj (Bpara1 t X))%C)). lra. }
    match goal with |- _ <= 3 / 4 * (br * ?u - br * ?v) => replace (3 / 4 * (br * u - br * v)) with (br * (3 / 4 * (u - v))) by ring end. apply Rmult_le_compat_l; [exact b|].
    pose proof (G ta cL) as G1. pose proof (G ta cR) as G2. pose proof (G tac cL) as G3. pose proof (G tac cR) as G4.
    assert (x : Rabs (re ta cR - re ta cL + re tac cR - re tac cL) <= Rabs (re ta cR) + Rabs (re ta cL) + Rabs (re tac cR) + Rabs (re tac cL)) by (unfold Rabs; repeat destruct Rcase_abs; lra).
    rewrite Rabs_mult, (Rabs_right (3 / 4)) by lra. apply Rmult_le_compat_l; [lra|]. lra.
Qed.
Lemma mget_in f d q2 : inside (e_ml d) (e_mLb d) (e_mL d) q2 -> m_get_obs f d q2 = f (angular_coefficients32 (get_transversity_amps32 d q2 false) (e_br d / 2)) (angular_coefficients32 (get_transversity_amps32 d q2 true) (e_br d / 2)).
Proof. intros (a & b). unfold m_get_obs. destruct Rlt_dec; [lra|]. destruct Rlt_dec; [lra|]. reflexivity. Qed.
Lemma mget_out f d q2 : ~ inside (e_ml d) (e_mLb d) (e_mL d) q2 -> m_get_obs f d q2 = 0.
Proof. intros n. unfold m_get_obs. destruct Rlt_dec; [reflexivity|]. destruct Rlt_dec; [reflexivity|]. exfalso. apply n. unfold inside. lra. Qed.
Lemma m_num_bounds d q2 : 0 <= e_br d -> let N f := m_get_obs f d q2 in 0 <= N m_FL_num <= N m_dGdq2 /\ Rabs (N m_AFBl_num) <= 3 / 4 * (N m_dGdq2 - N m_FL_num).
Proof.
  intros b N. unfold N. destruct (inside_dec (e_ml d) (e_mLb d) (e_mL d) q2) as [i | o].
  - rewrite !(mget_in _ _ _ i). apply L_bounds. lra.
  - rewrite !(mget_out _ _ _ o). rewrite Rabs_R0. repeat split; lra.
Qed.
Theorem C208_bounds : forall d q2, 0 <= e_br d -> let O f := m_ratio f m_dGdq2 d q2 in
  0 <= O m_FL_num <= 1 /\ Rabs (O m_AFBl_num) <= 3 / 4 * (1 - O m_FL_num) /\ (0 <= e_tau d -> 0 <= m_dbrdq2 d q2)
  /\ (q2 < 4 * e_ml d ^ 2 \/ (e_mLb d - e_mL d) ^ 2 < q2 -> m_dbrdq2 d q2 = 0 /\ forall n, m_ratio n m_dGdq2 d q2 = 0).
Proof.
  intros d q2 b O. unfold O, m_ratio. destruct (m_num_bounds d q2 b) as (F & A).
  split; [now apply ratio0_01 |]. split; [apply ratio_bounds; [lra | exact F | exact A] |]. split.
  - intros t. unfold m_dbrdq2. apply Rmult_le_pos; lra.
  - intros o. assert (n : ~ inside (e_ml d) (e_mLb d) (e_mL d) q2) by (unfold inside; lra). unfold m_dbrdq2. rewrite (mget_out _ _ _ n). split; [ring|]. intros m. rewrite !(mget_out _ _ _ n), ratio0_div. unfold Rdiv. ring.
Qed.
Print Assumptions C208_bounds.
Theorem C208_bins : forall d q2min q2max, 0 <= e_br d -> q2min < q2max ->
  (forall f, In f [m_dGdq2; m_FL_num; m_AFBl_num] -> ex_RInt (fun q2 => m_get_obs f d q2) q2min q2max) -> let O f := m_int_ratio f m_dGdq2 d q2min q2max in
  0 <= O m_FL_num <= 1 /\ Rabs (O m_AFBl_num) <= 3 / 4 * (1 - O m_FL_num) /\ (0 <= e_tau d -> 0 <= m_dbrdq2_int d q2min q2max) /\ O m_AFBh = 0 /\ O m_AFBlh = 0.
Proof.
  intros d q2min q2max b L I O. unfold O, m_int_ratio, m_dbrdq2_int, m_obs_int, nintegrate.
  assert (ID := I m_dGdq2 ltac:(cbn; tauto)). assert (IF := I m_FL_num ltac:(cbn; tauto)). assert (IA := I m_AFBl_num ltac:(cbn; tauto)).
  set (G := RInt (m_get_obs m_dGdq2 d) q2min q2max). set (Fl := RInt (m_get_obs m_FL_num d) q2min q2max).
  assert (E : RInt (fun q2 => 3 / 4 * m_get_obs m_dGdq2 d q2 + - (3 / 4) * m_get_obs m_FL_num d q2) q2min q2max = 3 / 4 * (G - Fl)).
  { rewrite RI_plus; [| apply (ex_RInt_scal (V := R_NormedModule)); exact ID | apply (ex_RInt_scal (V := R_NormedModule)); exact IF]. rewrite !RI_scal by assumption. match goal with |- ?a = ?b => change (@eq R a b) end. unfold G, Fl. ring. }
  assert (J : ex_RInt (fun q2 => 3 / 4 * m_get_obs m_dGdq2 d q2 + - (3 / 4) * m_get_obs m_FL_num d q2) q2min q2max)
    by (apply (ex_RInt_plus (V := R_NormedModule)); apply (ex_RInt_scal (V := R_NormedModule)); assumption).
  assert (B : Rabs (RInt (m_get_obs m_AFBl_num d) q2min q2max) <= 3 / 4 * (G - Fl)).
  { rewrite <- E. apply Rabs_le. split.
    - rewrite <- (RInt_opp (V := R_CompleteNormedModule)) by exact J. apply RInt_le; [lra | apply (ex_RInt_opp (V := R_NormedModule)); exact J | exact IA |].
      intros x _. destruct (m_num_bounds d x b) as (_ & h). apply Rabs_le_between in h. change (- (3 / 4 * m_get_obs m_dGdq2 d x + - (3 / 4) * m_get_obs m_FL_num d x) <= m_get_obs m_AFBl_num d x). lra.
    - apply RInt_le; [lra | exact IA | exact J |]. intros x _. destruct (m_num_bounds d x b) as (_ & h). apply Rabs_le_between in h. lra. }
  assert (F : 0 <= Fl <= G).
  { split; [apply RInt_ge_0; [lra | exact IF |] | apply RInt_le; [lra | exact IF | exact ID |]]; intros x _; destruct (m_num_bounds d x b) as (F & _); lra. }
  assert (Z : forall f, (forall L Lc, f L Lc = 0) -> ratio0 (RInt (m_get_obs f d) q2min q2max) G = 0).
  { intros f hf. assert (Z0 : RInt (m_get_obs f d) q2min q2max = 0); [| rewrite Z0, ratio0_div; apply Rmult_0_l].
    rewrite (RInt_ext' _ (fun _ => 0)); [rewrite RInt_const; exact (Rmult_0_r (q2max - q2min)) |].
    intros x. unfold m_get_obs. destruct Rlt_dec; [reflexivity|]. destruct Rlt_dec; [reflexivity|]. apply hf. }
  split; [now apply ratio0_01 |]. split; [apply ratio_bounds; [lra | exact F | exact B]|]. split; [| split; apply Z; reflexivity].
  intros ht. unfold Rdiv. apply Rmult_le_pos; [apply Rmult_le_pos; lra | left; apply Rinv_0_lt_compat; lra].
Qed.
Print Assumptions C208_bins.
(** without CP violation (the same effective coefficients and CKM factors for the conjugate decay) the CP asymmetries vanish *)
Theorem C208_cp : forall d q2 g, (forall k, e_wc d true q2 k = e_wc d false q2 k) -> e_xi d true = e_xi d false -> m_get_obs (m_A g) d q2 = 0.
Proof.
  intros d q2 g w x. unfold m_get_obs. destruct Rlt_dec; [reflexivity|]. destruct Rlt_dec; [reflexivity|].
  assert (E : angular_coefficients32 (get_transversity_amps32 d q2 true) (e_br d / 2) = angular_coefficients32 (get_transversity_amps32 d q2 false) (e_br d / 2)).
  { unfold get_transversity_amps32, transversity_amps32, m_prefactor, angular_coefficients32, C910pl, C910mi. cbn [Bperp1 Bpara1 Aperp1 Apara1 Aperp0 Apara0]. rewrite !w, x. reflexivity. }
  unfold m_A. rewrite E. field.
Qed.
Print Assumptions C208_cp.

(** zero recoil: only the amplitude B_perp1 survives, so that F_L and the lepton asymmetry vanish (in the limit) *)
Theorem C208_zero_recoil : forall (M m mb br br' : R) (ff : string -> R) (wc wc' : wckey -> C) (N N' : C), 0 < m < M -> let q2 := (M - m) ^ 2 in
  let L w n := angular_coefficients32 (transversity_amps32 (helicity_amps32 q2 M m ff) q2 mb w n) br in
  m_FL_num (L wc N) (L wc' N') = 0 /\ m_AFBl_num (L wc N) (L wc' N') = 0.
Proof.
  intros M m mb br br' ff wc wc' N N' hm q2 L. set (ta w n := transversity_amps32 (helicity_amps32 q2 M m ff) q2 mb w n).
  assert (P : forall w n X, Aperp1 (ta w n) X = RtoC 0 /\ Apara1 (ta w n) X = RtoC 0 /\ Aperp0 (ta w n) X = RtoC 0 /\ Apara0 (ta w n) X = RtoC 0 /\ Bpara1 (ta w n) X = RtoC 0).
  { intros w n X. unfold ta, transversity_amps32, helicity_amps32. cbn [Aperp1 Apara1 Aperp0 Apara0 Bpara1 gpV1 gpT1 gpA1 gpT51 g0V g0T g0A g0T5 gpA3 gpT53]. fold q2.
    rewrite (Rminus_eq_0 q2), !sqrt_0. unfold Rdiv. rewrite !Rmult_0_l, !Rmult_0_r, !Rmult_0_l, !Cmult_0_r. unfold Cminus. repeat split; ring. }
  destruct (C208_fractions (ta wc N) (ta wc' N') br) as (F & _). cbv zeta in F. split.
  - etransitivity; [exact F|]. destruct (P wc N cL) as (_ & _ & a & b & _). destruct (P wc N cR) as (_ & _ & a' & b' & _). destruct (P wc' N' cL) as (_ & _ & c & d & _). destruct (P wc' N' cR) as (_ & _ & c' & d' & _).
    rewrite a, b, a', b', c, d, c', d', Cmod_0. field.
  - unfold L, m_AFBl_num, angular_coefficients32. cbn [L1c L2c]. fold (ta wc N) (ta wc' N').
    destruct (P wc N cL) as (a1 & a2 & _ & _ & a3). destruct (P wc N cR) as (b1 & b2 & _ & _ & b3). destruct (P wc' N' cL) as (c1 & c2 & _ & _ & c3). destruct (P wc' N' cR) as (d1 & d2 & _ & _ & d3).
    rewrite a1, a2, a3, b1, b2, b3, c1, c2, c3, d1, d2, d3. unfold Re, Cminus, Cplus, Copp, Cmult, Cconj, RtoC, Rdiv. cbn [fst snd]. ring.
Qed.
Print Assumptions C208_zero_recoil.
(** with positive form factors, each amplitude is proportional to (C9 -+ C10) f + C7 g with f and g positive: dipole and vector coefficients of the same sign add *)
Theorem C208_dipole_interference : forall (q2 M m mb c9 : R) (ff : string -> R) (N : C) (ca : C) br c7 c7', 0 < q2 <= (M - m) ^ 2 -> 0 < m < M -> 0 <= mb -> 0 <= br -> (forall n, 0 <= ff n) -> 0 <= c9 -> 0 <= c7 <= c7' ->
  let wc x (k : wckey) := match k with W7 => RtoC x | Wv => RtoC c9 | Wa => ca | _ => RtoC 0 end in
  let L x := angular_coefficients32 (transversity_amps32 (helicity_amps32 q2 M m ff) q2 mb (wc x) N) br in m_dGdq2 (L c7) (L c7) <= m_dGdq2 (L c7') (L c7').
Proof.
  intros q2 M m mb c9 ff N ca br c7 c7' hq hm hb hbr r0 h9 h7 wc L. set (ta x := transversity_amps32 (helicity_amps32 q2 M m ff) q2 mb (wc x) N).
  assert (G : forall (p : C) (h g : R), 0 <= h -> 0 <= g -> forall x y, 0 <= x <= y ->
    Cmod (p * ((RtoC c9 - ca) * RtoC h + RtoC (x * g)))%C ^ 2 + Cmod (p * ((RtoC c9 + ca) * RtoC h + RtoC (x * g)))%C ^ 2 <= Cmod (p * ((RtoC c9 - ca) * RtoC h + RtoC (y * g)))%C ^ 2 + Cmod (p * ((RtoC c9 + ca) * RtoC h + RtoC (y * g)))%C ^ 2).
  { intros p h g h0 g0 x y hxy. rewrite !Cmod_mult, !Rpow_mult_distr, <- !Rmult_plus_distr_l. apply Rmult_le_compat_l; [apply pow2_ge_0|].
    rewrite !cmod_sq. destruct ca as [u v]. unfold Cminus, Cplus, Copp, Cmult, RtoC. cbn [fst snd].
    assert (X : c9 * h + x * g <= c9 * h + y * g) by (pose proof (Rmult_le_compat_r g x y g0 ltac:(lra)); lra).
    assert (X0 : 0 <= c9 * h + x * g) by (pose proof (Rmult_le_pos _ _ h9 h0); pose proof (Rmult_le_pos x g ltac:(lra) g0); lra).
    pose proof (pow_incr _ _ 2 (conj X0 X)) as Z. nra. }
  assert (A : forall (f : ta32 -> chir -> C), In f [Aperp0; Apara0; Aperp1; Apara1; Bperp1; Bpara1] -> exists (p : C) (h g : R), 0 <= h /\ 0 <= g /\ forall x, f (ta x) cL = (p * ((RtoC c9 - ca) * RtoC h + RtoC (x * g)))%C /\ f (ta x) cR = (p * ((RtoC c9 + ca) * RtoC h + RtoC (x * g)))%C).
  { set (sm := sqrt ((M - m) ^ 2 - q2)). set (sp := sqrt ((M + m) ^ 2 - q2)). set (dm := (M - m) ^ 2 - q2) in *. set (dp := (M + m) ^ 2 - q2) in *.
    assert (hdm : 0 <= dm) by (unfold dm; lra). assert (hdp : 0 <= dp) by (unfold dp; nra).
    assert (s0 : 0 <= sm) by apply sqrt_pos. assert (s1 : 0 <= sp) by apply sqrt_pos. destruct hq as (hq & _). pose proof (sqrt_lt_R0 _ hq) as rq.
    assert (iq : 0 < / q2) by now apply Rinv_0_lt_compat. assert (irq : 0 < / sqrt q2) by now apply Rinv_0_lt_compat. assert (im : 0 < / m) by (apply Rinv_0_lt_compat; lra).
    assert (r6 : 0 < sqrt 6) by (apply sqrt_lt_R0; lra). assert (r3 : 0 < sqrt 3) by (apply sqrt_lt_R0; lra).
    assert (i6 : 0 < / (sqrt 6 * m)) by (apply Rinv_0_lt_compat, Rmult_lt_0_compat; lra). assert (i3 : 0 < / (sqrt 3 * m)) by (apply Rinv_0_lt_compat, Rmult_lt_0_compat; lra).
    assert (Q : forall x y, 0 <= x -> 0 <= y -> 0 <= x * y) by (intros; now apply Rmult_le_pos).
    assert (hp : 0 <= M + m) by lra. assert (hn : 0 <= M - m) by lra.
    assert (E9 : forall x, (C910pl (wc x) cL = RtoC c9 - ca /\ C910pl (wc x) cR = RtoC c9 + ca /\ C910mi (wc x) cL = RtoC c9 - ca /\ C910mi (wc x) cR = RtoC c9 + ca)%C).
    { intros x. unfold C910pl, C910mi, wc. repeat split; ring. }
    intros f [<- | [<- | [<- | [<- | [<- | [<- | []]]]]]].
    - exists (- N * RtoC (sqrt 2))%C, (ff "fV0"%string * (M + m) * / sqrt q2 * (dm * sp) * / (sqrt 6 * m)), (2 * mb * / q2 * (ff "fT0"%string * sqrt q2 * (dm * sp) * / (sqrt 6 * m))).
      split; [repeat apply Q; auto; lra|]. split; [repeat apply Q; auto; lra|]. intros x. destruct (E9 x) as (e1 & e2 & e3 & e4). unfold ta, transversity_amps32, helicity_amps32. cbn [Aperp0 g0V g0T]. rewrite e1, e2. fold dm dp sm sp. cbn [wc]. unfold Cdiv, Rdiv. rewrite <- RtoC_inv by lra. rewrite ?RtoC_mult, ?RtoC_opp. split; ring.
    - exists (N * RtoC (sqrt 2))%C, (ff "fA0"%string * (M - m) * / sqrt q2 * (dp * sm) * / (sqrt 6 * m)), (2 * mb * / q2 * (ff "fT50"%string * sqrt q2 * (dp * sm) * / (sqrt 6 * m))).
      split; [repeat apply Q; auto; lra|]. split; [repeat apply Q; auto; lra|]. intros x. destruct (E9 x) as (e1 & e2 & e3 & e4). unfold ta, transversity_amps32, helicity_amps32. cbn [Apara0 g0A g0T5]. rewrite e3, e4. fold dm dp sm sp. cbn [wc]. unfold Cdiv, Rdiv. rewrite <- RtoC_inv by lra. rewrite ?RtoC_mult, ?RtoC_opp. split; ring.
    - exists (- N * RtoC (sqrt 2))%C, (ff "fVperp"%string * (dm * sp) * / (sqrt 3 * m)), (2 * mb * / q2 * (ff "fTperp"%string * (M + m) * (dm * sp) * / (sqrt 3 * m))).
      split; [repeat apply Q; auto; lra|]. split; [repeat apply Q; auto; lra|]. intros x. destruct (E9 x) as (e1 & e2 & e3 & e4). unfold ta, transversity_amps32, helicity_amps32. cbn [Aperp1 gpV1 gpT1]. rewrite e1, e2. fold dm dp sm sp. cbn [wc]. unfold Cdiv, Rdiv. rewrite <- RtoC_inv by lra. rewrite ?RtoC_mult, ?RtoC_opp. split; ring.
    - exists (- N * RtoC (sqrt 2))%C, (ff "fAperp"%string * (dp * sm) * / (sqrt 3 * m)), (2 * mb * / q2 * (ff "fT5perp"%string * (M - m) * (dp * sm) * / (sqrt 3 * m))).
      split; [repeat apply Q; auto; lra|]. split; [repeat apply Q; auto; lra|]. intros x. destruct (E9 x) as (e1 & e2 & e3 & e4). unfold ta, transversity_amps32, helicity_amps32. cbn [Apara1 gpA1 gpT51]. rewrite e3, e4. fold dm dp sm sp. cbn [wc]. unfold Cdiv, Rdiv. rewrite <- RtoC_inv by lra. rewrite ?RtoC_mult, ?RtoC_opp. split; ring.
    - exists (N * RtoC (sqrt 2))%C, (ff "fVg"%string * sp), (2 * mb * / q2 * (ff "fTg"%string * sp)).
      split; [repeat apply Q; auto; lra|]. split; [repeat apply Q; auto; lra|]. intros x. destruct (E9 x) as (e1 & e2 & e3 & e4). unfold ta, transversity_amps32, helicity_amps32. cbn [Bperp1 gpV3 gpT3]. rewrite e1, e2. fold dm dp sm sp. cbn [wc]. unfold Cdiv, Rdiv. rewrite <- RtoC_inv by lra. rewrite ?RtoC_mult, ?RtoC_opp. split; ring.
    - exists (N * RtoC (sqrt 2))%C, (ff "fAg"%string * sm), (2 * mb * / q2 * (ff "fT5g"%string * sm)).
      split; [repeat apply Q; auto; lra|]. split; [repeat apply Q; auto; lra|]. intros x. destruct (E9 x) as (e1 & e2 & e3 & e4). unfold ta, transversity_amps32, helicity_amps32. cbn [Bpara1 gpA3 gpT53]. rewrite e3, e4. fold dm dp sm sp. cbn [wc]. unfold Cdiv, Rdiv. rewrite <- RtoC_inv by lra. rewrite ?RtoC_mult, ?RtoC_opp. split; ring. }
  assert (MM : forall f, In f [Aperp0; Apara0; Aperp1; Apara1; Bperp1; Bpara1] -> Cmod (f (ta c7) cL) ^ 2 + Cmod (f (ta c7) cR) ^ 2 <= Cmod (f (ta c7') cL) ^ 2 + Cmod (f (ta c7') cR) ^ 2).
  { intros f hf. destruct (A f hf) as (p & h & g & h0 & g0 & E). destruct (E c7) as (-> & ->). destruct (E c7') as (-> & ->). now apply G. }
  destruct (C208_fractions (ta c7) (ta c7) br) as (_ & T). destruct (C208_fractions (ta c7') (ta c7') br) as (_ & T'). cbv zeta in T, T'.
  unfold L. fold (ta c7) (ta c7'). rewrite T, T'. apply Rmult_le_compat_l; [exact hbr|].
  pose proof (MM Aperp0 ltac:(cbn; tauto)). pose proof (MM Apara0 ltac:(cbn; tauto)). pose proof (MM Aperp1 ltac:(cbn; tauto)). pose proof (MM Apara1 ltac:(cbn; tauto)). pose proof (MM Bperp1 ltac:(cbn; tauto)). pose proof (MM Bpara1 ltac:(cbn; tauto)). lra.
Qed.
Print Assumptions C208_dipole_interference.

(** ** non-vacuity *)
Example C206_example : let ta := Ta12 (fun _ => RtoC 2) (fun X => match X with cR => RtoC 1 | cL => RtoC 0 end) (fun _ => Ci) (fun _ => RtoC 0) in let K := angular_coefficients ta (3 / 4) in
  Rabs (3 / 4) <= 1 /\ l_dGdq2 K = 11 /\ l_FL_num K = 2 /\ l_AFBl_num K = - 3 /\ l_AFBh_num K = 3 / 2 /\ l_AFBlh_num K = - (9 / 32).
Proof.
  cbv zeta. split; [rewrite Rabs_right; lra|]. unfold l_dGdq2, l_FL_num, l_AFBl_num, l_AFBh_num, l_AFBlh_num, angular_coefficients. cbn [K1ss K1cc K1c K2ss K2cc K2c perp1 para1 perp0 para0]. comps. unfold Ci. cbn [fst snd].
  repeat split; field.
Qed.
Example C206_data : let d := Lb 0 3 1 1 1 (3 / 4) (fun _ _ => 1) (fun _ k => match k with Wv => RtoC 1 | _ => RtoC 0 end) (RtoC 1) 1 1 (fun _ => Ta12 (fun _ => RtoC 0) (fun _ => RtoC 0) (fun _ => RtoC 0) (fun _ => RtoC 0)) (fun _ => Ta12 (fun _ => RtoC 0) (fun _ => RtoC 0) (fun _ => RtoC 0) (fun _ => RtoC 0)) in
  no_subleading d /\ inside (b_ml d) (b_mLb d) (b_mL d) 1 /\ 0 < b_mL d < b_mLb d /\ (forall n, 0 <= b_ff d 1 n) /\ (exists c9, 0 <= c9 /\ b_wc d 1 Wv = RtoC c9) /\ 0 < l_get_obs l_dGdq2 d 1.
Proof.
  intros d. assert (n : no_subleading d) by (intros q X; cbn; tauto). assert (i : inside (b_ml d) (b_mLb d) (b_mL d) 1) by (unfold inside, d; cbn [b_ml b_mLb b_mL]; lra).
  split; [exact n|]. split; [exact i|]. split; [unfold d; cbn [b_mL b_mLb]; lra|]. split; [intros; unfold d; cbn [b_ff]; lra|]. split; [exists 1; split; [lra | reflexivity]|].
  rewrite (get_in _ _ _ i). unfold K_of. destruct (C206_fractions (get_transverity_amps d 1) (b_alpha d)) as (F & T). cbv zeta in F, T.
  pose proof (pow2_ge_0 (Cmod (perp1 (get_transverity_amps d 1) cR))). pose proof (pow2_ge_0 (Cmod (perp0 (get_transverity_amps d 1) cL))). pose proof (pow2_ge_0 (Cmod (perp0 (get_transverity_amps d 1) cR))).
  pose proof (pow2_ge_0 (Cmod (para1 (get_transverity_amps d 1) cL))). pose proof (pow2_ge_0 (Cmod (para1 (get_transverity_amps d 1) cR))). pose proof (pow2_ge_0 (Cmod (para0 (get_transverity_amps d 1) cL))). pose proof (pow2_ge_0 (Cmod (para0 (get_transverity_amps d 1) cR))).
  enough (0 < Cmod (perp1 (get_transverity_amps d 1) cL) ^ 2) by lra. apply pow_lt, Cmod_gt_0. destruct (amps_is d 1 cL n) as (-> & _).
  unfold the_ff, transverity_amps, helicity_amps. cbn [perp1 hpV hpT]. unfold C910pl. change (b_wc d 1 Wv) with (RtoC 1). change (b_wc d 1 Wa) with (RtoC 0). change (b_wc d 1 Wvp) with (RtoC 0). change (b_wc d 1 Wap) with (RtoC 0). change (b_wc d 1 W7) with (RtoC 0). change (b_wc d 1 W7p) with (RtoC 0).
  change (b_mLb d) with 3. change (b_mL d) with 1. change (b_ff d 1 "fVperp"%string) with 1. rewrite Ropp_mult_distr_l_reverse, Rmult_1_l.
  set (s := sqrt (2 * ((3 - 1) ^ 2 - 1))). assert (hs : s <> 0) by (apply Rgt_not_eq; unfold s; apply sqrt_lt_R0; lra).
  match goal with |- ?x <> _ => replace x with (l_prefactor d 1 * RtoC (sqrt 2) * RtoC (- s))%C by (unfold Cdiv; rewrite RtoC_mult, RtoC_opp; ring) end.
  assert (NZ : forall x : R, x <> 0 -> RtoC x <> RtoC 0) by (intros x hx e; apply hx; now apply RtoC_inj).
  apply Cmult_neq_0; [apply Cmult_neq_0|].
  - unfold l_prefactor, d. cbn [b_mLb b_mL b_GF b_xi b_aem]. apply Cmult_neq_0; [apply Cmult_neq_0; apply NZ; exact R1_neq_R0|]. apply NZ.
    assert (0 < sqrt (sqrt (lambda_K (3 ^ 2) (1 ^ 2) 1))) by (apply sqrt_lt_R0, sqrt_lt_R0; unfold lambda_K; cbv zeta; destruct Rlt_dec as [X | _]; [exfalso; revert X; apply Rle_not_lt; lra | lra]).
    assert (0 < sqrt (3 * 2 * 3 ^ 3 * PI ^ 5)) by (apply sqrt_lt_R0; pose proof (pow_lt PI 5 PI_RGT_0); lra).
    rewrite sqrt_1. apply Rgt_not_eq. unfold Rdiv. repeat apply Rmult_lt_0_compat; try lra. now apply Rinv_0_lt_compat.
  - apply NZ. apply Rgt_not_eq, sqrt_lt_R0. lra.
  - apply NZ. now apply Ropp_neq_0_compat.
Qed.
