(** * Theorems: b -> q nu nu (C178, C179) *)
From Coq Require Import Reals Lra Psatz.
From Coquelicot Require Import Coquelicot.
From Verif Require Import Base Basics_Model Basics_Proofs Angular_Model Angular_Spec Decays_Model Decays_Proofs Rare_Model Rare_Spec Rare_Proofs.
Local Open Scope R_scope.

(** ** C178 *)
Lemma share_rho (m : string) (x : R) : (if (m =? "rho0")%string then x / 2 else x) = share_of "rho0" m * x.
Proof. unfold share_of. destruct (string_dec m "rho0") as [-> | n]; [rewrite String.eqb_refl; field |]. apply String.eqb_neq in n. rewrite n. ring. Qed.
Lemma share_pi (m : string) (x : R) : (if (m =? "pi0")%string then x / 2 else x) = share_of "pi0" m * x.
Proof. unfold share_of. destruct (string_dec m "pi0") as [-> | n]; [rewrite String.eqb_refl; field |]. apply String.eqb_neq in n. rewrite n. ring. Qed.
Lemma share_of_pos (n m : string) : 0 < share_of n m.
Proof. unfold share_of. destruct (string_dec m n); lra. Qed.

Theorem C178_vector_rate (d : nunu) (q2 : R) : nunu_ok d -> 0 < q2 <= q2max d ->
  bvnunu_dbrdq2_summed d q2 = share_of "rho0" (n_meson d) * (n_tau d * (rate_long d q2 + rate_para d q2 + rate_perp d q2)).
Proof. intros ok Q. unfold bvnunu_dbrdq2_summed. cbv zeta. rewrite share_rho, (proj1 (rate_v d ok q2 Q)). reflexivity. Qed.
Theorem C178_pseudoscalar_rate (d : nunu) (q2 : R) : nunu_ok d -> 0 < q2 <= q2max d ->
  bpnunu_dbrdq2_summed d q2 = share_of "pi0" (n_meson d) * (n_tau d * rate_P d q2).
Proof. intros ok Q. unfold bpnunu_dbrdq2_summed. cbv zeta. rewrite share_pi, (rate_p d ok q2 Q). reflexivity. Qed.
(** the rates for the polarisations are not negative *)
Lemma sumsq_pos (f : lep3 -> lep3 -> C) : 0 <= sumsq f.
Proof. unfold sumsq, over_flavours. repeat apply Rplus_le_le_0_compat; apply pow2_ge_0. Qed.
Lemma norm_ge (d : nunu) (q2 : R) : nunu_ok d -> 0 <= nunu_norm d q2.
Proof.
  intros (B & _). pose proof PI_RGT_0. unfold nunu_norm, Rdiv. apply Rmult_le_pos; [| apply sqrt_pos]. apply Rmult_le_pos.
  - apply Rmult_le_pos; [apply Rmult_le_pos |]; apply pow2_ge_0.
  - apply Rlt_le, Rinv_0_lt_compat. apply Rmult_lt_0_compat; [apply Rmult_lt_0_compat; [lra |] |]; now apply pow_lt.
Qed.
Lemma mom_ge (d : nunu) (q2 : R) : nunu_ok d -> q2 <= q2max d -> 0 <= momentum (n_mB d) (n_mM d) q2.
Proof. intros (B & M & _) Q. now apply lambda_in. Qed.
Lemma rates_ge (d : nunu) (q2 : R) : nunu_ok d -> 0 <= q2 <= q2max d -> 0 <= rate_long d q2 /\ 0 <= rate_para d q2 /\ 0 <= rate_perp d q2 /\ 0 <= rate_P d q2.
Proof.
  intros ok (Q & E). pose proof (norm_ge d q2 ok) as n. pose proof (mom_ge d q2 ok E) as m. pose proof ok as (B & M & _).
  pose proof (sumsq_pos (fun i j => left_total d i j + n_CR d i j)%C) as v. pose proof (sumsq_pos (fun i j => left_total d i j - n_CR d i j)%C) as a.
  fold (vector_strength d) in v. fold (axial_strength d) in a.
  assert (i : 0 <= / (2 * (n_mB d + n_mM d) ^ 2)). { apply Rlt_le, Rinv_0_lt_compat. assert (0 < (n_mB d + n_mM d) ^ 2) by (apply pow_lt; lra). lra. }
  unfold rate_long, rate_para, rate_perp, rate_P, Rdiv. refine (conj _ (conj _ (conj _ _))).
  - apply Rmult_le_pos; [apply Rmult_le_pos; [exact n |] | exact a]. apply Rmult_le_pos; [| apply pow2_ge_0]. apply Rmult_le_pos; [| apply pow2_ge_0]. apply Rmult_le_pos; [lra | apply pow2_ge_0].
  - apply Rmult_le_pos; [apply Rmult_le_pos; [exact n |] | exact a]. apply Rmult_le_pos; [| apply pow2_ge_0]. apply Rmult_le_pos; [| lra]. apply Rmult_le_pos; [lra | apply pow2_ge_0].
  - apply Rmult_le_pos; [apply Rmult_le_pos; [exact n |] | exact v]. apply Rmult_le_pos; [| apply pow2_ge_0]. apply Rmult_le_pos; [| exact i]. now apply Rmult_le_pos.
  - apply Rmult_le_pos; [apply Rmult_le_pos; [exact n |] | exact v]. apply Rmult_le_pos; [| apply pow2_ge_0]. lra.
Qed.
Theorem C178_longitudinal_fraction (d : nunu) (q2 : R) : nunu_ok d -> 0 < q2 <= q2max d ->
  let total := rate_long d q2 + rate_para d q2 + rate_perp d q2 in
  (total <> 0 -> bvnunu_fl_summed d q2 = rate_long d q2 / total) /\ (total = 0 -> bvnunu_fl_summed d q2 = 0) /\ 0 <= bvnunu_fl_summed d q2 <= 1.
Proof.
  intros ok Q total. destruct (rate_v d ok q2 Q) as (T & L). unfold bvnunu_fl_summed. cbv zeta. rewrite T, L. fold total.
  destruct (rates_ge d q2 ok ltac:(lra)) as (a & b & c & _).
  destruct (Req_EM_T total 0) as [z | z]; refine (conj _ (conj _ _)); try (intros; congruence); try lra.
  assert (P : 0 < total) by (unfold total in *; lra).
  split; [apply Rmult_le_pos; [exact a | apply Rlt_le, Rinv_0_lt_compat, P] |]. apply (Rmult_le_reg_r total); [exact P |]. unfold Rdiv. rewrite Rmult_assoc, Rinv_l, Rmult_1_r by lra. unfold total. lra.
Qed.
(** beyond the endpoint nothing is predicted *)
Theorem C178_beyond_endpoint (d : nunu) (q2 : R) : nunu_ok d -> 0 < q2 -> q2max d <= q2 <= (n_mB d + n_mM d) ^ 2 ->
  bvnunu_dbrdq2_summed d q2 = 0 /\ bpnunu_dbrdq2_summed d q2 = 0 /\ bvnunu_fl_summed d q2 = 0.
Proof.
  intros ok Q E. pose proof ok as (B & M & _). pose proof (lambda_out _ _ _ B M E) as Z.
  assert (V : forall H, angularcoeffs_general_v H q2 (n_mB d) (n_mM d) 0 0 = angularcoeffs_general_v H q2 (n_mB d) (n_mM d) 0 0) by reflexivity.
  assert (V0 : forall H k, angularcoeffs_general_v H q2 (n_mB d) (n_mM d) 0 0 k = 0).
  { intros H k. unfold angularcoeffs_general_v, J_of_g, G_to_g, angularcoeffs_general_Gbasis_v, gscale. cbv zeta. cbn [G000 G010 G020 G200 G210 G220 G211 G221 G222].
    unfold phase_space. rewrite Z, sqrt_0. replace (0 * sqrt (lambda_K q2 (0 ^ 2) (0 ^ 2)) / (2 ^ 9 * PI ^ 3 * n_mB d ^ 3 * q2)) with 0 by (unfold Rdiv; ring).
    destruct k; cbn [signflip]; rewrite ?Rmult_0_l; try (destruct (G211 _), (G221 _), (G222 _)); cbn [fst snd Cmult RtoC]; try ring;
    match goal with |- context [(RtoC 0 * ?z)%C] => destruct z as [zx zy]; cbn [fst snd Cmult RtoC]; ring end. }
  assert (P0 : forall h, Ja (angularcoeffs_general_p h q2 (n_mB d) (n_mM d) 0 0) = 0 /\ Jc (angularcoeffs_general_p h q2 (n_mB d) (n_mM d) 0 0) = 0).
  { intros h. unfold angularcoeffs_general_p, angularcoeffs_general_Gbasis_p. cbv zeta. cbn [Ja Jc Gp0 Gp1 Gp2]. unfold phase_space. rewrite Z, sqrt_0.
    replace (0 * sqrt (lambda_K q2 (0 ^ 2) (0 ^ 2)) / (2 ^ 9 * PI ^ 3 * n_mB d ^ 3 * q2)) with 0 by (unfold Rdiv; ring). rewrite !Rmult_0_l. split; field. }
  assert (S : forall f : lep3 -> lep3 -> R, (forall i j, f i j = 0) -> sum_nunu f = 0) by (intros f F; rewrite sum_over; unfold over_flavours; rewrite !F; ring).
  assert (SV : sum_nunu (fun i j => dGdq2 (bvnunu_J d q2 i j)) = 0) by (apply S; intros; unfold dGdq2, bvnunu_J; rewrite !V0; ring).
  assert (SP : sum_nunu (fun i j => P_dGdq2 (bpnunu_J d q2 i j)) = 0) by (apply S; intros; unfold P_dGdq2, bpnunu_J; destruct (P0 (helicity_amps_p q2 (n_mB d) (n_mM d) 4 0 0 0 (n_ff d q2) (nunu_wceff d i j) (nunu_prefactor d))) as (-> & ->); field).
  unfold bvnunu_dbrdq2_summed, bpnunu_dbrdq2_summed, bvnunu_fl_summed. cbv zeta. rewrite SV, SP, share_rho, share_pi. destruct (Req_EM_T 0 0) as [_ | n]; [| congruence]. repeat split; ring.
Qed.
(** bins: the mean of the rate, the fraction of the integrated rates, the integral over all q2 *)
Lemma cont_norm (d : nunu) (x : R) : continuous (nunu_norm d) x.
Proof.
  unfold nunu_norm. apply (continuous_scal_r (V := R_NormedModule)). apply continuous_comp; [| apply continuity_pt_filterlim, continuity_pt_sqrt_all || apply continuous_sqrt].
  unfold momentum. apply (ex_derive_continuous (V := R_NormedModule)). auto_derive. exact I.
Qed.
Lemma cont_sq (f : R -> R) (x : R) : continuous f x -> continuous (fun t => f t ^ 2) x.
Proof. intros c. apply (continuous_comp f (fun y => y ^ 2) x); [exact c |]. apply (ex_derive_continuous (V := R_NormedModule)). auto_derive. exact I. Qed.
Lemma cont_rates (d : nunu) (x : R) : ff_continuous d -> 0 <= x <= q2max d -> continuous (rate_long d) x /\ continuous (rate_para d) x /\ continuous (rate_perp d) x /\ continuous (rate_P d) x.
Proof.
  intros c X. pose proof (fun k => cont_sq (fun q => n_ff d q k) x (c k x X)) as sq. pose proof (cont_norm d x) as n.
  assert (M : forall f g : R -> R, continuous f x -> continuous g x -> continuous (fun t => f t * g t) x) by (intros f g; apply (continuous_mult (K := R_AbsRing))).
  assert (K : forall a : R, continuous (fun _ : R => a) x) by (intros; apply continuous_const).
  assert (I : continuous (fun t : R => t) x) by apply continuous_id.
  assert (mo : continuous (fun t => momentum (n_mB d) (n_mM d) t) x). { unfold momentum. apply (ex_derive_continuous (V := R_NormedModule)). auto_derive. exact Logic.I. }
  unfold rate_long, rate_para, rate_perp, rate_P, Rdiv. refine (conj _ (conj _ (conj _ _))); apply M; try apply K; apply M; try exact n; apply M; try exact (sq _); try apply K; repeat first [exact mo | exact I | apply K | apply M].
Qed.
Lemma cont_total (d : nunu) (x : R) : ff_continuous d -> 0 <= x <= q2max d -> continuous (fun q => rate_long d q + rate_para d q + rate_perp d q) x.
Proof. intros c X. destruct (cont_rates d x c X) as (a & b & e & _). apply (continuous_plus (V := R_NormedModule)); [apply (continuous_plus (V := R_NormedModule)) |]; assumption. Qed.
Lemma int_rates (d : nunu) (a b : R) : ff_continuous d -> 0 <= a <= b -> b <= q2max d ->
  int (rate_long d) a b /\ int (rate_P d) a b /\ int (fun q => rate_long d q + rate_para d q + rate_perp d q) a b.
Proof.
  intros c A B. refine (conj _ (conj _ _)); apply int_cont; try lra; intros x X; assert (Y : 0 <= x <= q2max d) by lra; destruct (cont_rates d x c Y) as (l & _ & _ & p); [exact l | exact p | exact (cont_total d x c Y)].
Qed.
Lemma RInt_v (d : nunu) (a b : R) : nunu_ok d -> ff_continuous d -> 0 <= a <= b -> b <= q2max d ->
  nintegrate (bvnunu_dbrdq2_summed d) a b = share_of "rho0" (n_meson d) * n_tau d * RInt (fun q => rate_long d q + rate_para d q + rate_perp d q) a b.
Proof.
  intros ok c A B. destruct (int_rates d a b c A B) as (_ & _ & iv). unfold nintegrate. rewrite <- (RI_scal _ a b _ iv). apply RI_ext; [lra |]. intros x X. rewrite C178_vector_rate by (trivial; lra). ring.
Qed.
Lemma RInt_p (d : nunu) (a b : R) : nunu_ok d -> ff_continuous d -> 0 <= a <= b -> b <= q2max d ->
  nintegrate (bpnunu_dbrdq2_summed d) a b = share_of "pi0" (n_meson d) * n_tau d * RInt (rate_P d) a b.
Proof.
  intros ok c A B. destruct (int_rates d a b c A B) as (_ & ip & _). unfold nintegrate. rewrite <- (RI_scal _ a b _ ip). apply RI_ext; [lra |]. intros x X. rewrite C178_pseudoscalar_rate by (trivial; lra). ring.
Qed.
Lemma RInt_l (d : nunu) (a b : R) : nunu_ok d -> ff_continuous d -> 0 <= a <= b -> b <= q2max d -> nintegrate (bvnunu_fl_num_summed d) a b = RInt (rate_long d) a b.
Proof. intros ok c A B. unfold nintegrate. apply RI_ext; [lra |]. intros x X. apply rate_v; trivial; lra. Qed.

Theorem C178_binned_rates (d : nunu) (a b : R) : nunu_ok d -> ff_continuous d -> 0 <= n_tau d -> 0 <= a < b -> b <= q2max d ->
  bvnunu_dbrdq2_int_summed d a b = share_of "rho0" (n_meson d) * n_tau d * RInt (fun q => rate_long d q + rate_para d q + rate_perp d q) a b / (b - a) /\
  bpnunu_dbrdq2_int_summed d a b = share_of "pi0" (n_meson d) * n_tau d * RInt (rate_P d) a b / (b - a) /\
  0 <= bvnunu_dbrdq2_int_summed d a b /\ 0 <= bpnunu_dbrdq2_int_summed d a b.
Proof.
  intros ok c T A B. unfold bvnunu_dbrdq2_int_summed, bpnunu_dbrdq2_int_summed. rewrite RInt_v, RInt_p by (trivial; lra).
  destruct (int_rates d a b c ltac:(lra) B) as (_ & ip & iv).
  refine (conj eq_refl (conj eq_refl _)).
  assert (I : 0 <= / (b - a)) by (apply Rlt_le, Rinv_0_lt_compat; lra).
  split; apply Rmult_le_pos; try exact I; apply Rmult_le_pos; try (apply Rmult_le_pos; [apply Rlt_le, share_of_pos | exact T]); apply RI_pos; try lra; try assumption;
    intros x X; destruct (rates_ge d x ok ltac:(lra)) as (p & q & r & s); lra.
Qed.
(** the mean of the bins [a, b] and [b, e], weighted with their widths, is the mean of the bin [a, e]; the branching ratio is that of the bin with all q2 *)
Theorem C178_total (d : nunu) : nunu_ok d -> ff_continuous d -> 0 < q2max d ->
  bvnunu_BRtot_summed d = bvnunu_dbrdq2_int_summed d 0 (q2max d) * q2max d /\ bpnunu_BRtot_summed d = bpnunu_dbrdq2_int_summed d 0 (q2max d) * q2max d /\
  forall a b e, 0 <= a < b -> b < e <= q2max d ->
    bvnunu_dbrdq2_int_summed d a e * (e - a) = bvnunu_dbrdq2_int_summed d a b * (b - a) + bvnunu_dbrdq2_int_summed d b e * (e - b) /\
    bpnunu_dbrdq2_int_summed d a e * (e - a) = bpnunu_dbrdq2_int_summed d a b * (b - a) + bpnunu_dbrdq2_int_summed d b e * (e - b).
Proof.
  intros ok c M. unfold bvnunu_BRtot_summed, bpnunu_BRtot_summed, bvnunu_dbrdq2_int_summed, bpnunu_dbrdq2_int_summed. fold (q2max d).
  refine (conj _ (conj _ _)); [field; lra | field; lra |].
  intros a b e A E. rewrite !RInt_v, !RInt_p by (trivial; lra).
  destruct (int_rates d a b c ltac:(lra) ltac:(lra)) as (_ & p1 & v1). destruct (int_rates d b e c ltac:(lra) ltac:(lra)) as (_ & p2 & v2).
  rewrite (RI_chasles _ a b e v1 v2), (RI_chasles _ a b e p1 p2). split; field; lra.
Qed.
Theorem C178_binned_fraction (d : nunu) (a b : R) : nunu_ok d -> ff_continuous d -> 0 < n_tau d -> n_meson d <> "rho0"%string -> 0 <= a < b -> b <= q2max d ->
  let total : R := RInt (fun q => rate_long d q + rate_para d q + rate_perp d q) a b in
  (total <> 0 -> bvnunu_fl_int_summed d a b = RInt (rate_long d) a b / total) /\ (total = 0 -> bvnunu_fl_int_summed d a b = 0) /\ 0 <= bvnunu_fl_int_summed d a b <= 1.
Proof.
  intros ok c T Nm A B total. unfold bvnunu_fl_int_summed, bvnunu_dbrdq2_int_summed, bvnunu_fl_num_int_summed. cbv zeta. rewrite RInt_v, RInt_l by (trivial; lra). fold total.
  unfold share_of. destruct (string_dec (n_meson d) "rho0") as [e | _]; [contradiction |].
  replace (1 * n_tau d * total / (b - a) / n_tau d) with (total / (b - a)) by (field; lra).
  destruct (int_rates d a b c ltac:(lra) B) as (il & _ & it).
  assert (P : 0 <= RInt (rate_long d) a b <= total).
  { split; [apply RI_pos | apply RI_le]; try lra; trivial; intros x X; destruct (rates_ge d x ok ltac:(lra)) as (p & q & r & s); lra. }
  destruct (Req_EM_T (total / (b - a)) 0) as [z | z].
  - assert (Z : (total : R) = 0). { transitivity (total / (b - a) * (b - a)); [field; lra |]. rewrite z. exact (Rmult_0_l _). }
    refine (conj _ (conj _ _)); try (intros; congruence); lra.
  - assert (Z : total <> 0). { intros Z. apply z. rewrite Z. unfold Rdiv. ring. }
    assert (E : RInt (rate_long d) a b / (b - a) / (total / (b - a)) = RInt (rate_long d) a b / total) by (field; repeat split; lra).
    rewrite E. refine (conj (fun _ => eq_refl) (conj _ _)); [congruence |]. assert (P0 : 0 < total) by lra.
    split; [apply Rmult_le_pos; [lra | apply Rlt_le, Rinv_0_lt_compat, P0] |]. apply (Rmult_le_reg_r total); [exact P0 |]. unfold Rdiv. rewrite Rmult_assoc, Rinv_l, Rmult_1_r by lra. lra.
Qed.

(** ** C179: new physics in b -> q nu nu *)
Definition zero2 : lep3 -> lep3 -> C := fun _ _ => RtoC 0.
Lemma strength_left (d : nunu) (CL : lep3 -> lep3 -> C) :
  axial_strength (with_np d CL zero2) = sumsq (left_total (with_np d CL zero2)) /\ vector_strength (with_np d CL zero2) = sumsq (left_total (with_np d CL zero2)).
Proof.
  unfold axial_strength, vector_strength, sumsq, over_flavours. cbn [n_CR with_np zero2]. unfold zero2.
  assert (P : forall z : C, (z - RtoC 0)%C = z) by (intros z; apply injective_projections; cbn; ring). assert (P' : forall z : C, (z + RtoC 0)%C = z) by (intros z; apply injective_projections; cbn; ring).
  rewrite !P, !P'. split; reflexivity.
Qed.
Lemma strength_sm (d : nunu) : sumsq (left_total (with_np d zero2 zero2)) = 3 * sm_coefficient d ^ 2.
Proof.
  unfold sumsq, over_flavours, left_total, zero2. cbn [n_CL with_np]. change (sm_coefficient (with_np d (fun _ _ => RtoC 0) (fun _ _ => RtoC 0))) with (sm_coefficient d).
  rewrite <- !RtoC_plus, !Cmod_R. rewrite !Rplus_0_l. assert (E : Rabs (sm_coefficient d) ^ 2 = sm_coefficient d ^ 2) by (rewrite <- !Rsqr_pow2; symmetry; apply Rsqr_abs).
  rewrite E, Rabs_R0. ring.
Qed.
(** left-handed new physics rescales the rate of every decay, at every q2, by the same factor, and leaves the longitudinal fraction unchanged *)
Theorem C179_left_handed (d : nunu) (CL : lep3 -> lep3 -> C) (q2 : R) : nunu_ok d -> 0 < q2 <= q2max d ->
  let np := with_np d CL zero2 in let sm := with_np d zero2 zero2 in
  let k := sumsq (left_total np) / (3 * sm_coefficient d ^ 2) in sm_coefficient d <> 0 ->
  bvnunu_dbrdq2_summed np q2 = k * bvnunu_dbrdq2_summed sm q2 /\ bpnunu_dbrdq2_summed np q2 = k * bpnunu_dbrdq2_summed sm q2 /\
  (0 < k -> bvnunu_fl_summed np q2 = bvnunu_fl_summed sm q2).
Proof.
  intros ok Q np sm k S.
  assert (Kn : sumsq (left_total np) = k * (3 * sm_coefficient d ^ 2)) by (unfold k; field; exact S).
  destruct (strength_left d CL) as (an & vn). destruct (strength_left d zero2) as (as_ & vs). fold np in an, vn. fold sm in as_, vs. change (left_total sm) with (left_total (with_np d zero2 zero2)) in as_, vs. rewrite strength_sm in as_, vs. rewrite Kn in an, vn.
  assert (rl : rate_long np q2 = k * rate_long sm q2) by (unfold rate_long; rewrite an, as_; unfold nunu_norm, np, sm; cbn [with_np n_mB n_mM n_ff n_GF n_alpha n_xit]; ring).
  assert (rp : rate_para np q2 = k * rate_para sm q2) by (unfold rate_para; rewrite an, as_; unfold nunu_norm, np, sm; cbn [with_np n_mB n_mM n_ff n_GF n_alpha n_xit]; ring).
  assert (rt : rate_perp np q2 = k * rate_perp sm q2) by (unfold rate_perp; rewrite vn, vs; unfold nunu_norm, np, sm; cbn [with_np n_mB n_mM n_ff n_GF n_alpha n_xit]; ring).
  assert (rP : rate_P np q2 = k * rate_P sm q2) by (unfold rate_P; rewrite vn, vs; unfold nunu_norm, np, sm; cbn [with_np n_mB n_mM n_ff n_GF n_alpha n_xit]; ring).
  assert (okn : nunu_ok np) by exact ok. assert (oks : nunu_ok sm) by exact ok.
  refine (conj _ (conj _ _)).
  - rewrite (C178_vector_rate np q2 okn Q), (C178_vector_rate sm q2 oks Q), rl, rp, rt. change (n_meson np) with (n_meson sm). change (n_tau np) with (n_tau sm). ring.
  - rewrite (C178_pseudoscalar_rate np q2 okn Q), (C178_pseudoscalar_rate sm q2 oks Q), rP. change (n_meson np) with (n_meson sm). change (n_tau np) with (n_tau sm). ring.
  - intros K. destruct (C178_longitudinal_fraction np q2 okn Q) as (n1 & n2 & _). destruct (C178_longitudinal_fraction sm q2 oks Q) as (s1 & s2 & _).
    rewrite rl, rp, rt in n1, n2. set (L := rate_long sm q2) in *. set (T := L + rate_para sm q2 + rate_perp sm q2) in *.
    replace (k * L + k * rate_para sm q2 + k * rate_perp sm q2) with (k * T) in n1, n2 by (unfold T; ring).
    destruct (Req_dec T 0) as [z | z].
    + rewrite (s2 z). apply n2. rewrite z. ring.
    + rewrite (s1 z), n1 by (apply Rmult_integral_contrapositive_currified; lra). field. lra.
Qed.
(** a pseudoscalar meson sees only the sum of the left- and right-handed coefficients; flavour-violating coefficients only add to the rates *)
Theorem C179_pseudoscalar_sum (d : nunu) (CL CR CL' CR' : lep3 -> lep3 -> C) (q2 : R) : nunu_ok d -> 0 < q2 <= q2max d ->
  (forall i j, CL i j + CR i j = CL' i j + CR' i j)%C -> bpnunu_dbrdq2_summed (with_np d CL CR) q2 = bpnunu_dbrdq2_summed (with_np d CL' CR') q2.
Proof.
  intros ok Q E. rewrite (C178_pseudoscalar_rate (with_np d CL CR) q2 ok Q), (C178_pseudoscalar_rate (with_np d CL' CR') q2 ok Q). cbn [n_meson n_tau with_np]. f_equal. f_equal. unfold rate_P.
  assert (V : vector_strength (with_np d CL CR) = vector_strength (with_np d CL' CR')).
  { unfold vector_strength, sumsq, over_flavours, left_total. cbn [n_CL n_CR with_np].
    assert (P : forall (i j : lep3) (s : C), (CL i j + s + CR i j = CL' i j + s + CR' i j)%C). { intros i j s. transitivity (CL i j + CR i j + s)%C; [ring |]. rewrite E. ring. }
    change (sm_coefficient (with_np d CL CR)) with (sm_coefficient d). change (sm_coefficient (with_np d CL' CR')) with (sm_coefficient d). rewrite !P. reflexivity. }
  rewrite V. reflexivity.
Qed.
Theorem C179_flavour_violation_adds (d : nunu) (CL CR : lep3 -> lep3 -> C) (q2 : R) : nunu_ok d -> 0 < q2 <= q2max d -> 0 <= n_tau d ->
  let conserving (f : lep3 -> lep3 -> C) := fun i j => (RtoC (same i j) * f i j)%C in
  let all := with_np d CL CR in let cons := with_np d (conserving CL) (conserving CR) in
  bvnunu_dbrdq2_summed cons q2 <= bvnunu_dbrdq2_summed all q2 /\ bpnunu_dbrdq2_summed cons q2 <= bpnunu_dbrdq2_summed all q2.
Proof.
  intros ok Q T conserving all cons. assert (oka : nunu_ok all) by exact ok. assert (okc : nunu_ok cons) by exact ok.
  assert (V : vector_strength cons <= vector_strength all /\ axial_strength cons <= axial_strength all).
  { unfold vector_strength, axial_strength, sumsq, over_flavours, left_total, all, cons, conserving. cbn [n_CL n_CR with_np same].
    change (sm_coefficient (with_np d CL CR)) with (sm_coefficient d). change (sm_coefficient (with_np d (fun i j => (RtoC (same i j) * CL i j)%C) (fun i j => (RtoC (same i j) * CR i j)%C))) with (sm_coefficient d).
    assert (P1 : forall z : C, (RtoC 1 * z)%C = z) by (intros z; apply injective_projections; cbn; ring). assert (P0 : forall z : C, (RtoC 0 * z)%C = RtoC 0) by (intros z; apply injective_projections; cbn; ring).
    rewrite !P1, !P0. assert (Z : Cmod (RtoC 0 + RtoC 0 + RtoC 0)%C ^ 2 = 0) by (rewrite <- !RtoC_plus, Cmod_R, !Rplus_0_r, Rabs_R0; ring).
    assert (Z' : Cmod (RtoC 0 + RtoC 0 - RtoC 0)%C ^ 2 = 0) by (rewrite <- !RtoC_plus, <- RtoC_minus, Cmod_R; replace (0 + 0 - 0) with 0 by ring; rewrite Rabs_R0; ring).
    rewrite Z, Z'. assert (P2 : forall z : C, 0 <= Cmod z ^ 2) by (intros; apply pow2_ge_0).
    split; repeat apply Rplus_le_compat; try apply Rle_refl; apply P2. }
  destruct V as (V & A). pose proof (norm_ge d q2 ok) as n. pose proof (mom_ge d q2 ok ltac:(lra)) as m. pose proof ok as (B & M & _).
  assert (LE : forall c x y, 0 <= c -> x <= y -> nunu_norm d q2 * c * x <= nunu_norm d q2 * c * y) by (intros; apply Rmult_le_compat_l; [now apply Rmult_le_pos | assumption]).
  assert (i : 0 <= / (2 * (n_mB d + n_mM d) ^ 2)). { apply Rlt_le, Rinv_0_lt_compat. assert (0 < (n_mB d + n_mM d) ^ 2) by (apply pow_lt; lra). lra. }
  assert (l1 : rate_long cons q2 <= rate_long all q2). { apply LE; [| exact A]. apply Rmult_le_pos; [| apply pow2_ge_0]. apply Rmult_le_pos; [| apply pow2_ge_0]. apply Rmult_le_pos; [lra | apply pow2_ge_0]. }
  assert (l2 : rate_para cons q2 <= rate_para all q2). { apply LE; [| exact A]. apply Rmult_le_pos; [| apply pow2_ge_0]. apply Rmult_le_pos; [| lra]. apply Rmult_le_pos; [lra | apply pow2_ge_0]. }
  assert (l3 : rate_perp cons q2 <= rate_perp all q2). { apply LE; [| exact V]. apply Rmult_le_pos; [| apply pow2_ge_0]. apply Rmult_le_pos; [| exact i]. apply Rmult_le_pos; [lra | exact m]. }
  assert (l4 : rate_P cons q2 <= rate_P all q2). { apply LE; [| exact V]. apply Rmult_le_pos; [| apply pow2_ge_0]. change (0 <= momentum (n_mB d) (n_mM d) q2 / 4). lra. }
  rewrite (C178_vector_rate cons q2 okc Q), (C178_vector_rate all q2 oka Q), (C178_pseudoscalar_rate cons q2 okc Q), (C178_pseudoscalar_rate all q2 oka Q).
  split; (apply Rmult_le_compat_l; [apply Rlt_le, share_of_pos |]; apply Rmult_le_compat_l; [exact T |]; lra).
Qed.

Print Assumptions C178_vector_rate.
Print Assumptions C178_pseudoscalar_rate.
Print Assumptions C178_longitudinal_fraction.
Print Assumptions C178_beyond_endpoint.
Print Assumptions C178_binned_rates.
Print Assumptions C178_total.
Print Assumptions C178_binned_fraction.
Print Assumptions C179_left_handed.
Print Assumptions C179_pseudoscalar_sum.
Print Assumptions C179_flavour_violation_adds.

(** the hypotheses are met: B -> K* nu nu with left- and right-handed new physics *)
Definition ex_nunu : nunu := NuNu 5 1 1 1 (1 / 128) (RtoC (4 / 100)) (23 / 100) (147 / 100) (1 / 128) "K*0" (fun q2 _ => 1 / (30 - q2))
  (fun i j => RtoC (1 - same i j)) (fun i j => (RtoC (same i j) * Ci)%C).
Example ex_nunu_ok : nunu_ok ex_nunu /\ ff_continuous ex_nunu /\ 0 < q2max ex_nunu /\ sm_coefficient ex_nunu <> 0 /\ n_meson ex_nunu <> "rho0"%string /\ 0 < rate_long ex_nunu 4.
Proof.
  assert (PI3 : 0 < PI) by exact PI_RGT_0.
  refine (conj _ (conj _ (conj _ (conj _ (conj _ _))))).
  - unfold nunu_ok, ex_nunu; cbn. repeat split; lra.
  - intros k q2 Q. unfold q2max, ex_nunu in *. cbn in *. apply (ex_derive_continuous (V := R_NormedModule)). auto_derive. lra.
  - unfold q2max, ex_nunu; cbn. lra.
  - unfold sm_coefficient, ex_nunu; cbn. lra.
  - discriminate.
  - unfold rate_long. apply Rmult_lt_0_compat; [apply Rmult_lt_0_compat |].
    + unfold nunu_norm, momentum, ex_nunu. cbn [n_GF n_alpha n_xit n_mB n_mM]. apply Rmult_lt_0_compat; [| apply sqrt_lt_R0; lra].
      rewrite Cmod_R, Rabs_pos_eq by lra. apply Rmult_lt_0_compat; [lra |]. apply Rinv_0_lt_compat. assert (0 < PI ^ 5) by now apply pow_lt. lra.
    + unfold ex_nunu; cbn [n_GF n_mB n_mM n_ff]. lra.
    + unfold axial_strength, sumsq, over_flavours. pose proof (pow2_ge_0) as g.
      assert (one : Cmod (left_total ex_nunu Le Lmu - n_CR ex_nunu Le Lmu)%C ^ 2 = 1).
      { rewrite cmod_sq. unfold left_total, ex_nunu; cbn. field. }
      rewrite one. repeat match goal with |- context [Cmod ?z ^ 2] => let x := fresh "x" in pose proof (g (Cmod z)); set (x := Cmod z ^ 2) in *; clearbody x end. lra.
Qed.
