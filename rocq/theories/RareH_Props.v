(** * Theorems: loop functions of the effective Wilson coefficients (C185) *)
From Coq Require Import Reals Lra Psatz.
From Coquelicot Require Import Coquelicot.
From Verif Require Import Base Basics_Model Basics_Proofs Rare_Model.
Local Open Scope R_scope.

(** ** real and imaginary part for 0 < s and a massive quark, with z = 4 mq^2/s; at most one of the roots is not zero *)
Definition zz (s mq : R) : R := 4 * mq ^ 2 / s.
Definition h_re (s mq mu : R) : R :=
  let z := zz s mq in
  - 4 / 9 * ln (mq ^ 2 / mu ^ 2) + 8 / 27 + 4 / 9 * z - 4 / 9 * (2 + z) * (sqrt (z - 1) * (PI / 2 - atan (sqrt (z - 1))) + sqrt (1 - z) * ln ((1 + sqrt (1 - z)) / sqrt z)).
Definition h_im (s mq : R) : R := let z := zz s mq in 4 / 9 * (2 + z) * sqrt (1 - z) * (PI / 2).
Lemma zz_pos (s mq : R) : 0 < s -> 0 < mq -> 0 < zz s mq.
Proof. intros S M. unfold zz. apply Rmult_lt_0_compat; [| now apply Rinv_0_lt_compat]. assert (0 < mq ^ 2) by now apply pow_lt. lra. Qed.
Lemma h_massive (s mq mu : R) : 0 < s -> 0 < mq -> loop_h s mq mu = Ok (h_re s mq mu, h_im s mq).
Proof.
  intros S M. unfold loop_h. destruct (Req_EM_T mq 0) as [e | _]; [lra |]. destruct (Req_EM_T s 0) as [e | _]; [lra |]. cbv zeta. fold (zz s mq). unfold h_re, h_im. cbv zeta.
  pose proof (zz_pos s mq S M) as Z. set (z := zz s mq) in *. clearbody z. refine (f_equal Ok _).
  destruct (Rlt_dec 1 z) as [l | l].
  - rewrite (sqrt_neg_0 (1 - z)) by lra. rewrite (Rabs_pos_eq (z - 1)) by lra. assert (p : 0 < sqrt (z - 1)) by (apply sqrt_lt_R0; lra).
    replace (1 / sqrt (z - 1)) with (/ sqrt (z - 1)) by (unfold Rdiv; ring). rewrite atan_inv by exact p.
    apply injective_projections; cbn [fst snd Cminus Cplus Copp Cmult RtoC]; ring.
  - rewrite (sqrt_neg_0 (z - 1)) by lra. rewrite (Rabs_left1 (z - 1)) by lra. replace (- (z - 1)) with (1 - z) by ring.
    apply injective_projections; unfold Cdiv; rewrite <- RtoC_inv by lra; cbn [fst snd Cminus Cplus Copp Cmult RtoC Ci]; field.
Qed.
Lemma h_zero (mq mu : R) : 0 < mq -> loop_h 0 mq mu = Ok (- 4 / 9 * (1 + ln (mq ^ 2 / mu ^ 2)), 0).
Proof. intros M. unfold loop_h. destruct (Req_EM_T mq 0) as [e | _]; [lra |]. destruct (Req_EM_T 0 0) as [_ | n]; [| lra]. reflexivity. Qed.
Lemma h_massless (s mu : R) : 0 < s -> loop_h s 0 mu = Ok (8 / 27 + 8 / 9 * ln mu - 4 / 9 * ln s, 4 / 9 * PI).
Proof.
  intros S. unfold loop_h. destruct (Req_EM_T 0 0) as [_ | n]; [| lra]. destruct (Req_EM_T s 0) as [e | _]; [lra |]. refine (f_equal Ok _).
  apply injective_projections; unfold Cdiv; rewrite <- RtoC_inv by lra; cbn [fst snd Cminus Cplus Copp Cmult RtoC Ci]; field.
Qed.
(** ** C185 *)
(** the only error: a massless quark at q2 = 0 *)
Theorem C185_defined (s mq mu : R) : 0 <= s -> 0 <= mq ->
  (s = 0 /\ mq = 0 -> loop_h s mq mu = Err ValueError) /\ (0 < s \/ 0 < mq -> exists v, loop_h s mq mu = Ok v).
Proof.
  intros S M. split.
  - intros (-> & ->). unfold loop_h. destruct (Req_EM_T 0 0) as [_ | n]; [reflexivity | lra].
  - intros H. destruct (Req_dec mq 0) as [-> | m].
    + destruct H as [H | H]; [| lra]. eexists. apply h_massless, H.
    + destruct (Req_dec s 0) as [-> | s0]; eexists; [apply h_zero | apply h_massive]; lra.
Qed.
(** below the threshold the loop is real; above, the imaginary part grows from 0 towards 4 pi/9, the value for a massless quark *)
Lemma im_sq (z : R) : ((2 + z) * sqrt (1 - z)) ^ 2 = if Rle_dec z 1 then 4 - 3 * z ^ 2 - z ^ 3 else 0.
Proof.
  destruct (Rle_dec z 1) as [l | l].
  - rewrite Rpow_mult_distr. rewrite <- (Rsqr_pow2 (sqrt (1 - z))), Rsqr_sqrt by lra. ring.
  - rewrite (sqrt_neg_0 (1 - z)) by lra. ring.
Qed.
Theorem C185_imaginary_part (s mq mu : R) : 0 <= s -> 0 < mq -> exists v, loop_h s mq mu = Ok v /\
  (s <= 4 * mq ^ 2 -> Im v = 0) /\ (4 * mq ^ 2 < s -> 0 < Im v < 4 / 9 * PI) /\
  (forall s' v', s < s' -> loop_h s' mq mu = Ok v' -> Im v <= Im v').
Proof.
  intros S M. pose proof PI_RGT_0 as P. assert (m2 : 0 < mq ^ 2) by now apply pow_lt.
  assert (G : forall s, 0 < s -> 0 <= h_im s mq).
  { intros t T. unfold h_im. cbv zeta. pose proof (zz_pos t mq T M). apply Rmult_le_pos; [| lra]. apply Rmult_le_pos; [lra | apply sqrt_pos]. }
  destruct (Req_dec s 0) as [-> | n].
  - eexists. split; [apply h_zero, M |]. unfold Im. cbn [snd]. refine (conj (fun _ => eq_refl) (conj _ _)); [lra |].
    intros s' v' L E. rewrite h_massive in E by (trivial; lra). injection E as <-. cbn [snd]. apply G. lra.
  - assert (Sp : 0 < s) by lra. eexists. split; [apply h_massive; trivial |]. unfold Im. cbn [snd]. pose proof (zz_pos s mq Sp M) as Z. refine (conj _ (conj _ _)).
    + intros L. unfold h_im. cbv zeta. rewrite sqrt_neg_0; [ring |]. unfold zz in *. assert (1 <= 4 * mq ^ 2 / s); [| lra]. apply (Rmult_le_reg_r s); [exact Sp |]. replace (4 * mq ^ 2 / s * s) with (4 * mq ^ 2) by (field; lra). lra.
    + intros L. assert (z1 : zz s mq < 1). { unfold zz. apply (Rmult_lt_reg_r s); [exact Sp |]. replace (4 * mq ^ 2 / s * s) with (4 * mq ^ 2) by (field; lra). lra. }
      unfold h_im. cbv zeta. set (z := zz s mq) in *. clearbody z. split.
      * apply Rmult_lt_0_compat; [| lra]. apply Rmult_lt_0_compat; [lra | apply sqrt_lt_R0; lra].
      * assert (w : (2 + z) * sqrt (1 - z) < 2).
        { apply Rsqr_incrst_0; [| apply Rmult_le_pos; [lra | apply sqrt_pos] | lra]. rewrite !Rsqr_pow2, im_sq. destruct (Rle_dec z 1); [| lra]. assert (0 < z ^ 2) by now apply pow_lt. assert (0 < z ^ 3) by now apply pow_lt. lra. }
        replace (4 / 9 * (2 + z) * sqrt (1 - z) * (PI / 2)) with (2 / 9 * PI * ((2 + z) * sqrt (1 - z))) by field.
        replace (4 / 9 * PI) with (2 / 9 * PI * 2) by field. apply Rmult_lt_compat_l; lra.
    + intros s' v' L E. rewrite h_massive in E by (trivial; lra). injection E as <-. cbn [snd]. unfold h_im. cbv zeta.
      pose proof (zz_pos s' mq ltac:(lra) M) as Z'. assert (zl : zz s' mq <= zz s mq). { unfold zz. apply Rmult_le_compat_l; [lra |]. apply Rinv_le_contravar; lra. }
      set (z := zz s mq) in *. set (z' := zz s' mq) in *. clearbody z z'.
      replace (4 / 9 * (2 + z) * sqrt (1 - z) * (PI / 2)) with (2 / 9 * PI * ((2 + z) * sqrt (1 - z))) by field. replace (4 / 9 * (2 + z') * sqrt (1 - z') * (PI / 2)) with (2 / 9 * PI * ((2 + z') * sqrt (1 - z'))) by field.
      apply Rmult_le_compat_l; [lra |]. apply Rsqr_incr_0_var; [| apply Rmult_le_pos; [lra | apply sqrt_pos]]. rewrite !Rsqr_pow2, !im_sq.
      destruct (Rle_dec z 1), (Rle_dec z' 1); try lra.
      * assert (z' ^ 2 <= z ^ 2) by (apply pow_incr; lra). assert (z' ^ 3 <= z ^ 3) by (apply pow_incr; lra). lra.
      * assert (z' ^ 2 <= 1 ^ 2) by (apply pow_incr; lra). assert (z' ^ 3 <= 1 ^ 3) by (apply pow_incr; lra). lra.
Qed.
(** dependence on the renormalisation scale; the function depends on ratios of scales only *)
Theorem C185_scale (s mq mu mu' : R) : 0 <= s -> 0 <= mq -> 0 < s \/ 0 < mq -> 0 < mu -> 0 < mu' ->
  exists v v', loop_h s mq mu = Ok v /\ loop_h s mq mu' = Ok v' /\ (v' - v = RtoC (8 / 9 * ln (mu' / mu)))%C.
Proof.
  intros S M H U U'. assert (L : ln (mu' / mu) = ln mu' - ln mu) by (apply ln_div; assumption).
  assert (Lm : 0 < mq -> forall u, 0 < u -> ln (mq ^ 2 / u ^ 2) = 2 * ln mq - 2 * ln u).
  { intros m u u0. rewrite ln_div by now apply pow_lt. rewrite !ln_pow by assumption. cbn [INR]. ring. }
  destruct (Req_dec mq 0) as [-> | m]; [| destruct (Req_dec s 0) as [-> | s0]].
  - assert (0 < s) by (destruct H; lra). eexists. eexists. split; [now apply h_massless |]. split; [now apply h_massless |]. rewrite L. apply injective_projections; cbn; ring.
  - assert (0 < mq) by lra. eexists. eexists. split; [now apply h_zero |]. split; [now apply h_zero |]. rewrite L, !Lm by assumption. apply injective_projections; cbn; field.
  - assert (0 < mq) by lra. assert (0 < s) by lra. eexists. eexists. split; [now apply h_massive |]. split; [now apply h_massive |]. rewrite L. unfold h_re, h_im. cbv zeta. rewrite !Lm by assumption. apply injective_projections; cbn; field.
Qed.
Theorem C185_dimensionless (s mq mu k : R) : 0 <= s -> 0 <= mq -> 0 < mu -> 0 < k -> loop_h (k ^ 2 * s) (k * mq) (k * mu) = loop_h s mq mu.
Proof.
  intros S M U K. assert (k2 : 0 < k ^ 2) by now apply pow_lt.
  destruct (Req_dec mq 0) as [-> | m]; destruct (Req_dec s 0) as [-> | s0].
  - rewrite !Rmult_0_r. unfold loop_h. destruct (Req_EM_T 0 0); [reflexivity | lra].
  - rewrite Rmult_0_r, !h_massless by (try apply Rmult_lt_0_compat; lra). rewrite !ln_mult by lra. rewrite ln_pow by exact K. cbn [INR]. refine (f_equal Ok _). f_equal. field.
  - assert (0 < mq) by lra. assert (0 < k * mq) by now apply Rmult_lt_0_compat. rewrite Rmult_0_r, !h_zero by assumption. replace ((k * mq) ^ 2 / (k * mu) ^ 2) with (mq ^ 2 / mu ^ 2) by (field; lra). reflexivity.
  - assert (0 < mq) by lra. assert (0 < s) by lra. rewrite !h_massive by (try apply Rmult_lt_0_compat; lra). unfold h_re, h_im. cbv zeta.
    assert (z : zz (k ^ 2 * s) (k * mq) = zz s mq) by (unfold zz; field; lra). rewrite z. replace ((k * mq) ^ 2 / (k * mu) ^ 2) with (mq ^ 2 / mu ^ 2) by (field; lra). reflexivity.
Qed.
(** arctangent *)
Lemma atan_lower (u : R) : 0 < u -> u - u ^ 3 / 3 <= atan u.
Proof.
  intros U. destruct (MVT_gen (fun x => atan x - x + x ^ 3 / 3) 0 u (fun x => / (1 + x²) - 1 + x ^ 2)) as (c & C & E).
  - intros x _. auto_derive; [exact I |]. unfold Rsqr. field. nra.
  - intros x _. apply continuity_pt_filterlim. refine (ex_derive_continuous (V := R_NormedModule) (fun x => atan x - x + x ^ 3 / 3) x _). auto_derive. exact I.
  - rewrite atan_0 in E. assert (P : 0 <= / (1 + c²) - 1 + c ^ 2).
    { replace (/ (1 + c²) - 1 + c ^ 2) with (c ^ 4 * / (1 + c²)) by (unfold Rsqr; field; nra). apply Rmult_le_pos; [replace (c ^ 4) with ((c ^ 2) ^ 2) by ring; apply pow2_ge_0 | apply Rlt_le, Rinv_0_lt_compat; unfold Rsqr; nra]. }
    assert (0 <= (/ (1 + c²) - 1 + c ^ 2) * (u - 0)) by (apply Rmult_le_pos; lra). lra.
Qed.
Lemma atan_upper (u : R) : 0 < u -> atan u <= u - u ^ 3 / 3 + u ^ 5 / 5.
Proof.
  intros U. destruct (MVT_gen (fun x => x - x ^ 3 / 3 + x ^ 5 / 5 - atan x) 0 u (fun x => 1 - x ^ 2 + x ^ 4 - / (1 + x²))) as (c & C & E).
  - intros x _. auto_derive; [exact I |]. unfold Rsqr. field. nra.
  - intros x _. apply continuity_pt_filterlim. refine (ex_derive_continuous (V := R_NormedModule) (fun x => x - x ^ 3 / 3 + x ^ 5 / 5 - atan x) x _). auto_derive. exact I.
  - rewrite atan_0 in E. assert (P : 0 <= 1 - c ^ 2 + c ^ 4 - / (1 + c²)).
    { replace (1 - c ^ 2 + c ^ 4 - / (1 + c²)) with (c ^ 6 * / (1 + c²)) by (unfold Rsqr; field; nra). apply Rmult_le_pos; [replace (c ^ 6) with ((c ^ 3) ^ 2) by ring; apply pow2_ge_0 | apply Rlt_le, Rinv_0_lt_compat; unfold Rsqr; nra]. }
    assert (0 <= (1 - c ^ 2 + c ^ 4 - / (1 + c²)) * (u - 0)) by (apply Rmult_le_pos; lra). lra.
Qed.
(** close to q2 = 0 the value approaches the one of the special case q2 = 0 *)
Theorem C185_small_q2 (s mq mu : R) : 0 < mq -> 0 < s <= 3 * mq ^ 2 ->
  exists v v0, loop_h s mq mu = Ok v /\ loop_h 0 mq mu = Ok v0 /\ Im v = Im v0 /\ Rabs (Re v - Re v0) <= 4 / 9 * (s / (4 * mq ^ 2 - s)).
Proof.
  intros M (S & L). assert (m2 : 0 < mq ^ 2) by now apply pow_lt. eexists. eexists. split; [now apply h_massive |]. split; [now apply h_zero |].
  assert (z1 : zz s mq - 1 = (4 * mq ^ 2 - s) / s) by (unfold zz; field; lra). set (r := s / (4 * mq ^ 2 - s)).
  assert (r0 : 0 < r <= 3). { unfold r. split; [apply Rmult_lt_0_compat; [exact S | apply Rinv_0_lt_compat; lra] |]. apply (Rmult_le_reg_r (4 * mq ^ 2 - s)); [lra |]. replace (s / (4 * mq ^ 2 - s) * (4 * mq ^ 2 - s)) with s by (field; lra). lra. }
  assert (zr : zz s mq = 1 + / r) by (unfold r, zz; field; lra). assert (ir : 0 < / r) by (apply Rinv_0_lt_compat; lra).
  unfold Re, Im. cbn [fst snd]. unfold h_re, h_im. cbv zeta. rewrite zr. replace (1 - (1 + / r)) with (- / r) by ring. rewrite (sqrt_neg_0 (- / r)) by lra. split; [ring |].
  replace (1 + / r - 1) with (/ r) by ring. set (u := sqrt r). assert (u0 : 0 < u) by (apply sqrt_lt_R0; lra). assert (u2 : u * u = r) by (apply sqrt_sqrt; lra).
  assert (si : sqrt (/ r) = / u) by (unfold u; rewrite sqrt_inv; reflexivity). rewrite si. assert (ia : PI / 2 - atan (/ u) = atan u) by (rewrite atan_inv by exact u0; ring). rewrite ia.
  pose proof (atan_lower u u0) as lo. pose proof (atan_upper u u0) as up. set (a := atan u) in *. clearbody a. rewrite <- u2.
  match goal with |- Rabs ?e <= _ => replace e with (32 / 27 + 4 / 9 * / (u * u) - 4 / 9 * ((3 * (u * u) + 1) / (u * (u * u)) * a)) by (field; lra) end.
  assert (k : 0 < (3 * (u * u) + 1) / (u * (u * u))) by (apply Rmult_lt_0_compat; [nra | apply Rinv_0_lt_compat; apply Rmult_lt_0_compat; nra]).
  assert (lo' : (3 * (u * u) + 1) / (u * (u * u)) * (u - u ^ 3 / 3) <= (3 * (u * u) + 1) / (u * (u * u)) * a) by (apply Rmult_le_compat_l; lra).
  assert (up' : (3 * (u * u) + 1) / (u * (u * u)) * a <= (3 * (u * u) + 1) / (u * (u * u)) * (u - u ^ 3 / 3 + u ^ 5 / 5)) by (apply Rmult_le_compat_l; lra).
  replace ((3 * (u * u) + 1) / (u * (u * u)) * (u - u ^ 3 / 3)) with (/ (u * u) + 8 / 3 - u * u) in lo' by (field; lra).
  replace ((3 * (u * u) + 1) / (u * (u * u)) * (u - u ^ 3 / 3 + u ^ 5 / 5)) with (/ (u * u) + 8 / 3 - u * u + (3 * (u * u) + 1) * (u * u) / 5) in up' by (field; lra).
  set (b := (3 * (u * u) + 1) / (u * (u * u)) * a) in *. clearbody b. rewrite u2 in *. assert ((3 * r + 1) * r / 5 <= 2 * r) by nra. apply Rabs_le. lra.
Qed.
(** light quarks: the value approaches the one of the special case of massless quarks *)
Lemma ln_le (y : R) : 0 < y -> ln y <= y - 1.
Proof. intros Y. rewrite <- (ln_exp (y - 1)). apply ln_le; [exact Y |]. pose proof (exp_ineq1_le (y - 1)). lra. Qed.
Theorem C185_light_quarks (s mq mu : R) : 0 < mq -> 0 < mu -> 4 * mq ^ 2 < s ->
  exists v v0, loop_h s mq mu = Ok v /\ loop_h s 0 mu = Ok v0 /\ Rabs (Re v - Re v0) <= 8 / 3 * (4 * mq ^ 2 / s) /\ Rabs (Im v - Im v0) <= 4 / 9 * PI * (4 * mq ^ 2 / s) ^ 2.
Proof.
  intros M U L. assert (m2 : 0 < mq ^ 2) by now apply pow_lt. assert (S : 0 < s) by lra. pose proof PI_RGT_0 as P. eexists. eexists. split; [now apply h_massive |]. split; [now apply h_massless |].
  unfold Re, Im. cbn [fst snd]. unfold h_re, h_im. cbv zeta. pose proof (zz_pos s mq S M) as Z. fold (zz s mq).
  assert (z1 : zz s mq < 1). { unfold zz. apply (Rmult_lt_reg_r s); [exact S |]. replace (4 * mq ^ 2 / s * s) with (4 * mq ^ 2) by (field; lra). lra. }
  assert (Lz : ln (zz s mq) = 2 * ln 2 + 2 * ln mq - ln s). { unfold zz. rewrite ln_div, ln_mult, ln_pow by (try apply Rmult_lt_0_compat; lra). replace 4 with (2 ^ 2) by ring. rewrite ln_pow by lra. cbn [INR]. ring. }
  assert (Lm : ln (mq ^ 2 / mu ^ 2) = 2 * ln mq - 2 * ln mu). { rewrite ln_div by now apply pow_lt. rewrite !ln_pow by assumption. cbn [INR]. ring. }
  rewrite Lm. set (z := zz s mq) in *. clearbody z. rewrite (sqrt_neg_0 (z - 1)) by lra.
  set (u := sqrt (1 - z)). assert (u0 : 0 < u) by (apply sqrt_lt_R0; lra). assert (u2 : u * u = 1 - z) by (apply sqrt_sqrt; lra). assert (u1 : u < 1) by nra.
  assert (ls : ln (sqrt z) = ln z / 2). { assert (0 < sqrt z) by now apply sqrt_lt_R0. assert (E : ln z = ln (sqrt z) + ln (sqrt z)) by (rewrite <- ln_mult by assumption; f_equal; symmetry; apply sqrt_sqrt; lra). lra. }
  rewrite ln_div by (try apply sqrt_lt_R0; lra). rewrite ls. clear ls. set (w := (2 + z) * u / 2).
  assert (w2 : w ^ 2 = 1 - 3 / 4 * z ^ 2 - z ^ 3 / 4). { unfold w. replace (((2 + z) * u / 2) ^ 2) with ((2 + z) ^ 2 * (u * u) / 4) by field. rewrite u2. field. }
  assert (z2 : 0 < z ^ 2) by now apply pow_lt. assert (z3 : 0 < z ^ 3 < z ^ 2) by (split; [now apply pow_lt | nra]). assert (zz2 : z ^ 2 <= z) by nra.
  assert (w0 : 0 < w) by (unfold w; nra). assert (w1 : w < 1) by nra. assert (w3 : 0 < 1 - w <= z ^ 2) by nra.
  assert (l2 : 0 < ln 2 <= 1). { split; [rewrite <- ln_1; apply ln_increasing; lra | pose proof (ln_le 2); lra]. }
  assert (lz : - ln z * z <= 1). { pose proof (ln_le (/ z) ltac:(apply Rinv_0_lt_compat, Z)) as l. rewrite ln_Rinv in l by exact Z. apply (Rmult_le_compat_r z) in l; [| lra]. replace ((/ z - 1) * z) with (1 - z) in l by (field; lra). lra. }
  assert (lz0 : ln z < 0) by (rewrite <- ln_1; apply ln_increasing; lra).
  assert (lu : 0 <= ln 2 - ln (1 + u) <= z).
  { rewrite <- ln_div by lra. split.
    - rewrite <- ln_1. apply Rcomplements.ln_le; [lra |]. apply (Rmult_le_reg_r (1 + u)); [lra |]. replace (2 / (1 + u) * (1 + u)) with 2 by (field; lra). lra.
    - pose proof (ln_le (2 / (1 + u)) ltac:(apply Rmult_lt_0_compat; [lra | apply Rinv_0_lt_compat; lra])) as l. assert (2 / (1 + u) - 1 <= z); [| lra].
      replace (2 / (1 + u) - 1) with ((1 - u) / (1 + u)) by (field; lra). apply (Rmult_le_reg_r (1 + u)); [lra |]. replace ((1 - u) / (1 + u) * (1 + u)) with (1 - u) by (field; lra). nra. }
  split.
  - match goal with |- Rabs ?e <= _ => replace e with (4 / 9 * z + 4 / 9 * (- ln z * (1 - w)) + 8 / 9 * ((1 - w) * ln 2 + w * (ln 2 - ln (1 + u)))) by (unfold w; rewrite Lz; field) end.
    assert (A : 0 <= - ln z * (1 - w) <= z). { split; [apply Rmult_le_pos; lra |]. apply Rle_trans with (- ln z * z ^ 2); [apply Rmult_le_compat_l; lra |]. replace (- ln z * z ^ 2) with (- ln z * z * z) by ring. apply Rle_trans with (1 * z); [apply Rmult_le_compat_r; lra | lra]. }
    assert (B : 0 <= (1 - w) * ln 2 <= z). { split; [apply Rmult_le_pos; lra |]. apply Rle_trans with (z ^ 2 * 1); [apply Rmult_le_compat; lra | lra]. }
    assert (D : 0 <= w * (ln 2 - ln (1 + u)) <= z). { split; [apply Rmult_le_pos; lra |]. apply Rle_trans with (1 * z); [apply Rmult_le_compat; lra | lra]. }
    rewrite Rabs_pos_eq by lra. lra.
  - replace (4 / 9 * (2 + z) * u * (PI / 2) - 4 / 9 * PI) with (- (4 / 9 * PI * (1 - w))) by (unfold w; field). rewrite Rabs_Ropp, Rabs_pos_eq by (apply Rmult_le_pos; lra). apply Rmult_le_compat_l; lra.
Qed.
(** continuous for all q2 > 0, also at the threshold q2 = 4 mq^2 *)
Theorem C185_continuous (mq mu : R) : 0 < mq -> exists re im : R -> R, (forall s, 0 < s -> loop_h s mq mu = Ok (re s, im s)) /\ forall s, 0 < s -> continuous re s /\ continuous im s.
Proof.
  intros M. exists (fun s => h_re s mq mu), (fun s => h_im s mq). split; [intros s S; now apply h_massive |]. intros s S.
  assert (Mu : forall f g : R -> R, continuous f s -> continuous g s -> continuous (fun t => f t * g t) s) by (intros f g; apply (continuous_mult (K := R_AbsRing))).
  assert (A : forall f g : R -> R, continuous f s -> continuous g s -> continuous (fun t => f t + g t) s) by (intros f g; apply (continuous_plus (V := R_NormedModule))).
  assert (B : forall f g : R -> R, continuous f s -> continuous g s -> continuous (fun t => f t - g t) s) by (intros f g; apply (continuous_minus (V := R_NormedModule))).
  assert (K : forall a : R, continuous (fun _ : R => a) s) by (intros; apply continuous_const).
  assert (z : continuous (fun t => zz t mq) s). { apply (ex_derive_continuous (V := R_NormedModule)). unfold zz. auto_derive. lra. }
  pose proof (zz_pos s mq S M) as Z.
  assert (p : continuous (fun t => sqrt (zz t mq - 1)) s). { apply continuous_comp; [| apply continuous_sqrt]. apply B; [exact z | apply K]. }
  assert (q : continuous (fun t => sqrt (1 - zz t mq)) s). { apply continuous_comp; [| apply continuous_sqrt]. apply B; [apply K | exact z]. }
  assert (r : continuous (fun t => sqrt (zz t mq)) s). { apply continuous_comp; [exact z | apply continuous_sqrt]. }
  assert (sp : 0 < sqrt (zz s mq)) by now apply sqrt_lt_R0.
  split.
  - unfold h_re. cbv zeta. apply B.
    + apply A; [apply K |]. apply Mu; [apply K | exact z].
    + apply Mu; [apply Mu; [apply K |]; apply A; [apply K | exact z] |]. apply A; apply Mu; [exact p | | exact q |].
      * apply B; [apply K |]. apply (continuous_comp (fun t => sqrt (zz t mq - 1)) atan); [exact p | apply continuous_atan].
      * apply (continuous_comp (fun t => (1 + sqrt (1 - zz t mq)) / sqrt (zz t mq)) ln).
        -- apply Mu; [apply A; [apply K | exact q] |]. apply (continuous_comp (fun t => sqrt (zz t mq)) Rinv); [exact r |]. apply continuous_Rinv. lra.
        -- apply (ex_derive_continuous (V := R_NormedModule)). auto_derive. apply Rmult_lt_0_compat; [pose proof (sqrt_pos (1 - zz s mq)); lra | now apply Rinv_0_lt_compat].
  - unfold h_im. cbv zeta. apply Mu; [| apply K]. apply Mu; [| exact q]. apply Mu; [apply K |]. apply A; [apply K | exact z].
Qed.
(** the other function with a special case at q2 = 0: its value is the limit of the others, and the imaginary part is constant *)
Theorem C185_F87 (L sh : R) : 0 < sh <= 1 -> Im (F_87 L sh) = Im (F_87 L 0) /\ Rabs (Re (F_87 L sh) - Re (F_87 L 0)) <= 150 * sqrt sh.
Proof.
  intros (S & S1). pose proof PI_RGT_0 as P. pose proof PI_4 as P4. unfold F_87. destruct (Req_EM_T sh 0) as [e | _]; [lra |]. destruct (Req_EM_T 0 0) as [_ | n]; [| lra].
  unfold Cdiv. rewrite <- RtoC_inv by lra. unfold Re, Im. cbn [fst snd Cminus Cplus Copp Cmult RtoC Ci]. split; [field |].
  assert (l : 0 <= - ln sh * sh <= 2 * sqrt sh).
  { assert (s0 : 0 < sqrt sh) by now apply sqrt_lt_R0. assert (ss : sqrt sh * sqrt sh = sh) by (apply sqrt_sqrt; lra).
    assert (E : ln sh = 2 * ln (sqrt sh)) by (rewrite <- ss at 1; rewrite ln_mult by assumption; ring).
    pose proof (ln_le (/ sqrt sh) ltac:(apply Rinv_0_lt_compat, s0)) as u. rewrite ln_Rinv in u by exact s0. split.
    - apply Rmult_le_pos; [| lra]. assert (ln sh <= ln 1) by (apply Rcomplements.ln_le; lra). rewrite ln_1 in *. lra.
    - apply (Rmult_le_compat_r (sqrt sh)) in u; [| lra]. replace ((/ sqrt sh - 1) * sqrt sh) with (1 - sqrt sh) in u by (field; lra).
      rewrite E. set (v := sqrt sh) in *. clearbody v. rewrite <- ss. replace (- (2 * ln v) * (v * v)) with (2 * v * (- ln v * v)) by ring.
      apply Rle_trans with (2 * v * 1); [apply Rmult_le_compat_l; lra | lra]. }
  assert (r : sh <= sqrt sh <= 1). { assert (s0 : 0 < sqrt sh) by now apply sqrt_lt_R0. assert (ss : sqrt sh * sqrt sh = sh) by (apply sqrt_sqrt; lra). assert (sqrt sh <= 1) by (rewrite <- sqrt_1; apply sqrt_le_1; lra). nra. }
  assert (s2 : 0 < sh ^ 2 <= sh) by (split; [now apply pow_lt | nra]). assert (s3 : 0 < sh ^ 3 <= sh) by (split; [now apply pow_lt | nra]).
  set (x := - ln sh) in *. assert (x0 : ln sh = - x) by (unfold x; ring). rewrite x0. clearbody x. clear x0.
  assert (x1 : 0 <= x * sh ^ 2 <= 2 * sqrt sh). { replace (x * sh ^ 2) with (x * sh * sh) by ring. split; [apply Rmult_le_pos; lra |]. rewrite <- (Rmult_1_r (2 * sqrt sh)). apply Rmult_le_compat; lra. }
  assert (x2 : 0 <= x * sh ^ 3 <= 2 * sqrt sh). { replace (x * sh ^ 3) with (x * sh ^ 2 * sh) by ring. split; [apply Rmult_le_pos; lra |]. rewrite <- (Rmult_1_r (2 * sqrt sh)). apply Rmult_le_compat; lra. }
  match goal with |- Rabs ?e <= _ => replace e with ((4 / 3 * PI ^ 2 - 40 / 3) * sh + (32 / 9 * PI ^ 2 - 316 / 9) * sh ^ 2 + (200 / 27 * PI ^ 2 - 658 / 9) * sh ^ 3 + 8 / 9 * (x * sh + x * sh ^ 2 + x * sh ^ 3)) by field end.
  assert (p2 : 0 <= PI ^ 2 <= 16) by (split; [apply pow2_ge_0 | replace 16 with (4 ^ 2) by ring; apply pow_incr; lra]).
  assert (B : forall lo hi c y, lo <= 0 <= hi -> lo <= c <= hi -> 0 <= y <= sqrt sh -> lo * sqrt sh <= c * y <= hi * sqrt sh).
  { intros lo hi c y O C Y. split; nra. }
  pose proof (B (- 14) 8 (4 / 3 * PI ^ 2 - 40 / 3) sh ltac:(lra) ltac:(lra) ltac:(lra)) as b1.
  pose proof (B (- 36) 22 (32 / 9 * PI ^ 2 - 316 / 9) (sh ^ 2) ltac:(lra) ltac:(lra) ltac:(lra)) as b2.
  pose proof (B (- 74) 46 (200 / 27 * PI ^ 2 - 658 / 9) (sh ^ 3) ltac:(lra) ltac:(lra) ltac:(lra)) as b3.
  assert (l' : 0 <= x * sh <= 2 * sqrt sh) by exact l.
  apply Rabs_le. split; lra.
Qed.

Print Assumptions C185_defined.
Print Assumptions C185_imaginary_part.
Print Assumptions C185_scale.
Print Assumptions C185_dimensionless.
Print Assumptions C185_small_q2.
Print Assumptions C185_light_quarks.
Print Assumptions C185_continuous.
Print Assumptions C185_F87.

(** the hypotheses are met: mb = 4.8, mc = 1.3 GeV at mu = 4.8 GeV, q2 = 1 and 15 GeV^2 *)
Example ex_below : 0 < 13 / 10 /\ 0 < 1 <= 3 * (13 / 10) ^ 2. Proof. lra. Qed.
Example ex_above : 4 * (13 / 10) ^ 2 < 15. Proof. lra. Qed.
Example ex_real : exists v, loop_h 1 (13 / 10) (48 / 10) = Ok v /\ Im v = 0.
Proof. destruct (C185_imaginary_part 1 (13 / 10) (48 / 10)) as (v & E & H & _); [lra | lra |]. exists v. split; [exact E |]. apply H. lra. Qed.
Example ex_complex : exists v, loop_h 15 (13 / 10) (48 / 10) = Ok v /\ 0 < Im v.
Proof. destruct (C185_imaginary_part 15 (13 / 10) (48 / 10)) as (v & E & _ & H & _); [lra | lra |]. exists v. split; [exact E |]. apply H. lra. Qed.
Example ex_error : loop_h 0 0 (48 / 10) = Err ValueError.
Proof. apply (C185_defined 0 0 (48 / 10)); [lra | lra | split; reflexivity]. Qed.
