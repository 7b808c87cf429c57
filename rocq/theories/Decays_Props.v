(** * Theorems about charged-current decays: C124 - C129 *)
From Coq Require Import Reals Lra.
From Coquelicot Require Import Coquelicot.
From Verif Require Import Base Basics_Model Basics_Proofs Angular_Model Angular_Spec Angular_Proofs Angular_Proofs2 Angular_Proofs3 Angular_Proofs4 Angular_Proofs5 Angular_Proofs6 Angular_Proofs7 Angular_Proofs8 Angular_Proofs9 Decays_Model Decays_Spec Decays_Proofs Decays_Proofs2 Decays_Proofs3 Decays_Proofs4 Decays_Proofs5.
Local Open Scope R_scope.

(** ** C124: distributions in one angle at fixed q2 *)
Lemma allowed_in (d : lnu) (l : lep3) (q2 : R) : in_range d l q2 -> kinem_allowed d q2 l = true.
Proof. intros (a & b). unfold kinem_allowed, endpoint in *. destruct (Rlt_dec q2 _) as [n | n]; [lra |]. destruct (Rlt_dec _ q2) as [m | m]; [lra | reflexivity]. Qed.
Lemma allowed_out (d : lnu) (l : lep3) (q2 : R) : ~ in_range d l q2 -> kinem_allowed d q2 l = false.
Proof. intros N. unfold kinem_allowed. destruct (Rlt_dec q2 _) as [n | n]; [reflexivity |]. destruct (Rlt_dec _ q2) as [m | m]; [reflexivity |]. exfalso. apply N. unfold in_range, endpoint. lra. Qed.
(** the published distributions are the squared amplitudes integrated over the other angles (change of variables cos for polar angles) *)
Theorem C124_differential (d : lnu) (l : lep3) (q2 x : R) : well_posed d -> in_range d l q2 ->
  let factor := share neutral_v (meson d) * tau_B d in
  dBR_dq2_dcosthl d q2 (cos x) l * sin x = factor * rate_thl (decay_density d l q2) x /\
  dBR_dq2_dcosthV d q2 (cos x) l * sin x = factor * rate_thV (decay_density d l q2) x /\
  dBR_dq2_dphi d q2 x l = factor * rate_phi (decay_density d l q2) x /\
  dBRdq2 d q2 (Lep l) PolAll = factor * rate_all (decay_density d l q2).
Proof.
  intros W I factor. pose proof (allowed_in d l q2 I) as K.
  unfold dBR_dq2_dcosthl, dBR_dq2_dcosthV, dBR_dq2_dphi, dBR_dq2_dang, dBRdq2, dBRdq2_lep. rewrite K. cbn [negb].
  rewrite rate_thl_is, rate_thV_is, rate_phi_is, rate_all_is by assumption. rewrite thl_is, thV_is, phi_is, all_is, share_v. unfold factor. refine (conj _ (conj _ (conj _ _))); ring.
Qed.
(** bins in an angle are integrals of the distributions, at any q2; full ranges give the q2 spectrum *)
Theorem C124_bins (d : lnu) (l : lep3) (q2 a b : R) :
  dBR_dq2_dcosthl_binned d q2 a b l = RInt (fun c => dBR_dq2_dcosthl d q2 c l) a b /\
  dBR_dq2_dcosthV_binned d q2 a b l = RInt (fun c => dBR_dq2_dcosthV d q2 c l) a b /\
  dBR_dq2_dphi_binned d q2 a b l = RInt (fun p => dBR_dq2_dphi d q2 p l) a b.
Proof.
  unfold dBR_dq2_dcosthl_binned, dBR_dq2_dcosthV_binned, dBR_dq2_dphi_binned, dBR_dq2_dcosthl, dBR_dq2_dcosthV, dBR_dq2_dphi, dBR_dq2_dang, dBR_dq2_dang_binned.
  destruct (kinem_allowed d q2 l); cbn [negb].
  - assert (Q : forall (f : R -> R) F, (forall x, is_derive F x (f x)) -> (forall x, continuous f x) -> int f a b).
    { intros f F _ C. apply (ex_RInt_continuous (V := R_CompleteNormedModule)). intros; apply C. }
    assert (c1 : int (fun c => sum_ang (dG_dq2_dcosthl (get_angularcoeff d q2 l)) (_cos_angle_diff c)) a b).
    { ring_dist. apply (ex_RInt_continuous (V := R_CompleteNormedModule)). intros x _. apply (ex_derive_continuous (V := R_NormedModule)). auto_derive. easy. }
    assert (c2 : int (fun c => sum_ang (dG_dq2_dcosthV (get_angularcoeff d q2 l)) (_cos_angle_diff c)) a b).
    { ring_dist. apply (ex_RInt_continuous (V := R_CompleteNormedModule)). intros x _. apply (ex_derive_continuous (V := R_NormedModule)). auto_derive. easy. }
    assert (c3 : int (fun c => sum_ang (dG_dq2_dphi (get_angularcoeff d q2 l)) (_angle_diff c)) a b).
    { ring_dist. apply (ex_RInt_continuous (V := R_CompleteNormedModule)). intros x _. apply (ex_derive_continuous (V := R_NormedModule)). auto_derive. easy. }
    rewrite thl_bin, thV_bin, phi_bin. refine (conj _ (conj _ _)); symmetry; apply RI_scal; assumption.
  - refine (conj _ (conj _ _)); rewrite RInt_const; symmetry; apply Rmult_0_r.
Qed.
Theorem C124_full (d : lnu) (l : lep3) (q2 x : R) :
  dBR_dq2_dcosthl_binned d q2 (-1) 1 l = dBRdq2 d q2 (Lep l) PolAll /\
  dBR_dq2_dcosthV_binned d q2 (-1) 1 l = dBRdq2 d q2 (Lep l) PolAll /\
  dBR_dq2_dphi_binned d q2 x (x + 2 * PI) l = dBRdq2 d q2 (Lep l) PolAll.
Proof.
  unfold dBR_dq2_dcosthl_binned, dBR_dq2_dcosthV_binned, dBR_dq2_dphi_binned, dBR_dq2_dang_binned, dBRdq2, dBRdq2_lep.
  destruct (kinem_allowed d q2 l); cbn [negb]; [| repeat split; reflexivity]. rewrite thl_full, thV_full, phi_full. cbv zeta. refine (conj _ (conj _ _)); ring.
Qed.
(** longitudinal and transverse vector mesons, and how they determine the distribution in cos theta_V *)
Theorem C124_polarisation (d : lnu) (l : lep3) (q2 c : R) :
  dBRdq2 d q2 (Lep l) PolL + dBRdq2 d q2 (Lep l) PolT = dBRdq2 d q2 (Lep l) PolAll /\
  dBR_dq2_dcosthV d q2 c l = 3 / 2 * c ^ 2 * dBRdq2 d q2 (Lep l) PolL + 3 / 4 * (1 - c ^ 2) * dBRdq2 d q2 (Lep l) PolT.
Proof.
  unfold dBR_dq2_dcosthV, dBR_dq2_dang, dBRdq2, dBRdq2_lep. destruct (kinem_allowed d q2 l); cbn [negb]; [| split; ring]. cbv zeta. split.
  - rewrite <- (LT (get_angularcoeff d q2 l)). ring.
  - unfold sum_ang. cbn [fold_left fst snd dG_dq2_dcosthV _cos_angle_diff]. unfold dGdq2_L, dGdq2_T. field.
Qed.
Theorem C124_positive (d : lnu) (l : lep3) (q2 x : R) : well_posed d ->
  (-1 <= x <= 1 -> 0 <= dBR_dq2_dcosthl d q2 x l /\ 0 <= dBR_dq2_dcosthV d q2 x l) /\ 0 <= dBR_dq2_dphi d q2 x l.
Proof.
  intros W. unfold dBR_dq2_dcosthl, dBR_dq2_dcosthV, dBR_dq2_dphi, dBR_dq2_dang. destruct (kinem_allowed d q2 l) eqn:K; cbn [negb]; [| lra].
  assert (I : in_range d l q2). { unfold kinem_allowed in K. unfold in_range, endpoint. destruct (Rlt_dec q2 _); [discriminate |]. destruct (Rlt_dec _ q2); [discriminate | lra]. }
  pose proof (J_dist_pos d l W q2 I) as P. assert (F : 0 <= BRfac d * tau_B d) by (rewrite Rmult_comm; now apply facs).
  split; [intros c1; split |]; (apply Rmult_le_pos; [exact F |]); [now apply thl_pos | now apply thV_pos | now apply phi_pos].
Qed.

(** ** C125: integrals over q2 *)
Definition Fq (d : lnu) (A : pol) (l : lep3) (q2 : R) : R := tau_B d * BRfac d * rate_of A (get_angularcoeff d q2 l).
Lemma F_int (d : lnu) (A : pol) (W : well_posed d) (l : lep3) : int (Fq d A l) (m_lep d l ^ 2) (endpoint d).
Proof. unfold Fq. apply (int_scal (fun q2 => rate_of A (get_angularcoeff d q2 l))). now apply rate_integrable. Qed.
Lemma D_is (d : lnu) (A : pol) (q2 : R) (lep : lepton) : dBRdq2 d q2 lep A = avg lep (fun l => clip (m_lep d l ^ 2) (endpoint d) (Fq d A l) q2).
Proof. destruct lep as [l |]; cbn [dBRdq2 avg]; rewrite !lep_clip; reflexivity. Qed.
Lemma F_pos (d : lnu) (A : pol) (W : well_posed d) (l : lep3) (q2 : R) : m_lep d l ^ 2 <= q2 <= endpoint d -> 0 <= Fq d A l q2.
Proof. intros I. unfold Fq. apply Rmult_le_pos; [now apply facs | now apply rate_of_pos]. Qed.
Lemma tot_is (d : lnu) (A : pol) (W : well_posed d) (lep : lepton) : BR_tot d lep A = avg lep (fun l => RInt (Fq d A l) (m_lep d l ^ 2) (endpoint d)).
Proof.
  assert (E : forall l, _BR_tot d l A = RInt (Fq d A l) (m_lep d l ^ 2) (endpoint d)).
  { intros l. unfold _BR_tot, BR_binned, nintegrate. fold (endpoint d). cbn [dBRdq2]. unfold Fq. rewrite lep_cover by (try exact W; apply Rle_refl). symmetry. apply RI_scal. now apply rate_integrable. }
  destruct lep as [l |]; cbn [BR_tot avg]; rewrite !E; reflexivity.
Qed.
Lemma los (d : lnu) (W : well_posed d) : forall l, m_lep d l ^ 2 <= endpoint d. Proof. intros l. destruct (range_le d l W). assumption. Qed.

Theorem C125_outside (d : lnu) (q2 : R) (l : lep3) (A : pol) : ~ in_range d l q2 -> dBRdq2 d q2 (Lep l) A = 0.
Proof. intros N. cbn [dBRdq2]. now apply lep_out. Qed.
Theorem C125_mean (d : lnu) (q2 a b : R) (A : pol) : well_posed d ->
  dBRdq2 d q2 Ll A = mean Ll (fun l => dBRdq2 d q2 (Lep l) A) /\ BR_binned d a b Ll A = mean Ll (fun l => BR_binned d a b (Lep l) A) /\ BR_tot d Ll A = mean Ll (fun l => BR_tot d (Lep l) A) /\
  BR_binned_costhl d a b Ll = mean Ll (fun l => BR_binned_costhl d a b (Lep l)) /\ BR_binned_costhV d a b Ll = mean Ll (fun l => BR_binned_costhV d a b (Lep l)) /\ BR_binned_phi d a b Ll = mean Ll (fun l => BR_binned_phi d a b (Lep l)).
Proof.
  intros W. refine (conj _ (conj _ (conj _ (conj _ (conj _ _))))); try reflexivity.
  unfold BR_binned, nintegrate, mean. rewrite !(D_RInt (fun l => m_lep d l ^ 2) (endpoint d) (Fq d A) (fun q2 lep => dBRdq2 d q2 lep A) (F_int d A W) (D_is d A)). reflexivity.
Qed.
(** adjacent bins add up; bins that cover the kinematic range give the total, the lifetime times the integrated rate *)
Theorem C125_bins (d : lnu) (lep : lepton) (A : pol) (a b c : R) : well_posed d -> BR_binned d a b lep A + BR_binned d b c lep A = BR_binned d a c lep A.
Proof. intros W. exact (bins_add _ _ _ _ (F_int d A W) (D_is d A) lep a b c). Qed.
Theorem C125_cover (d : lnu) (lep : lepton) (A : pol) (a b : R) : well_posed d -> (forall l, a <= m_lep d l ^ 2) -> endpoint d <= b -> BR_binned d a b lep A = BR_tot d lep A.
Proof. intros W La Lb. rewrite tot_is by exact W. exact (bins_cover _ _ _ _ (los d W) (F_int d A W) (D_is d A) lep a b La Lb). Qed.
Theorem C125_total (d : lnu) (lep : lepton) : well_posed d ->
  BR_tot d lep PolAll = mean lep (fun l => share neutral_v (meson d) * tau_B d * RInt (fun q2 => rate_all (decay_density d l q2)) (m_lep d l ^ 2) (endpoint d)).
Proof.
  intros W. rewrite tot_is by exact W.
  assert (E : forall l, RInt (Fq d PolAll l) (m_lep d l ^ 2) (endpoint d) = share neutral_v (meson d) * tau_B d * RInt (fun q2 => rate_all (decay_density d l q2)) (m_lep d l ^ 2) (endpoint d)).
  { intros l. unfold Fq. rewrite (RI_scal (fun q2 => rate_of PolAll (get_angularcoeff d q2 l))) by now apply rate_integrable. rewrite share_v, (Rmult_comm (share _ _)). f_equal. apply RI_ext; [now apply los |].
    intros x X. cbn [rate_of]. rewrite rate_all_is by (try exact W; unfold in_range; lra). symmetry. apply all_is. }
  destruct lep as [l |]; cbn [avg mean]; rewrite !E; reflexivity.
Qed.
Theorem C125_polarisation (d : lnu) (lep : lepton) (a b : R) : well_posed d ->
  BR_binned d a b lep PolL + BR_binned d a b lep PolT = BR_binned d a b lep PolAll /\ BR_tot d lep PolL + BR_tot d lep PolT = BR_tot d lep PolAll.
Proof.
  intros W.
  assert (P : forall x y, BR_binned d x y lep PolL + BR_binned d x y lep PolT = BR_binned d x y lep PolAll).
  { intros x y. unfold BR_binned, nintegrate.
    rewrite <- (RI_plus (fun q2 => dBRdq2 d q2 lep PolL) (fun q2 => dBRdq2 d q2 lep PolT)) by (apply (D_int _ _ _ (fun q2 lep => dBRdq2 d q2 lep _) (F_int d _ W) (D_is d _))).
    apply ext_R. intros q2. destruct lep as [l |]; [apply (C124_polarisation d l q2 0) |].
    pose proof (proj1 (C124_polarisation d Le q2 0)) as e. pose proof (proj1 (C124_polarisation d Lmu q2 0)) as m. cbn [dBRdq2] in *. rewrite <- e, <- m. toR. field. }
  split; [apply P |]. set (lo := Rmin (m_lep d Le ^ 2) (Rmin (m_lep d Lmu ^ 2) (m_lep d Ltau ^ 2))).
  assert (L : forall l, lo <= m_lep d l ^ 2).
  { assert (X2 := Rmin_l (m_lep d Le ^ 2) (Rmin (m_lep d Lmu ^ 2) (m_lep d Ltau ^ 2))). assert (X3 := Rmin_r (m_lep d Le ^ 2) (Rmin (m_lep d Lmu ^ 2) (m_lep d Ltau ^ 2))).
    assert (X4 := Rmin_l (m_lep d Lmu ^ 2) (m_lep d Ltau ^ 2)). assert (X5 := Rmin_r (m_lep d Lmu ^ 2) (m_lep d Ltau ^ 2)). unfold lo. intros l. destruct l; lra. }
  rewrite <- !(C125_cover d lep _ lo (endpoint d) W L (Rle_refl _)). apply P.
Qed.
(** angles: adjacent bins add up, full ranges give the total, bins are integrals of the distributions *)
Lemma ang_one (d : lnu) (l : lep3) dG ang : well_posed d -> is_dist dG ->
  RInt (fun q2 => if negb (kinem_allowed d q2 l) then 0 else BRfac d * tau_B d * sum_ang (dG (get_angularcoeff d q2 l)) ang) (m_lep d l ^ 2) ((m_B d - m_M d) ^ 2)
  = tau_B d * BRfac d * RInt (fun q2 => sum_ang (dG (get_angularcoeff d q2 l)) ang) (m_lep d l ^ 2) (endpoint d).
Proof. intros W D. fold (endpoint d). now apply ang_q2. Qed.
Section Angles.
  Variables (d : lnu) (dG : (jkey -> R) -> list (trig * R)) (ai ad : R -> trig -> R).
  Hypotheses (W : well_posed d) (D : is_dist dG).
  Lemma ang_add (lep : lepton) (a b c : R) :
    over_q2 d (fun q2 l => dBR_dq2_dang_binned d dG ai q2 a b l) lep + over_q2 d (fun q2 l => dBR_dq2_dang_binned d dG ai q2 b c l) lep = over_q2 d (fun q2 l => dBR_dq2_dang_binned d dG ai q2 a c l) lep.
  Proof using W D.
    assert (one : forall l, nintegrate (fun q2 => dBR_dq2_dang_binned d dG ai q2 a b l) (m_lep d l ^ 2) ((m_B d - m_M d) ^ 2) + nintegrate (fun q2 => dBR_dq2_dang_binned d dG ai q2 b c l) (m_lep d l ^ 2) ((m_B d - m_M d) ^ 2)
      = nintegrate (fun q2 => dBR_dq2_dang_binned d dG ai q2 a c l) (m_lep d l ^ 2) ((m_B d - m_M d) ^ 2)).
    { intros l. unfold nintegrate, dBR_dq2_dang_binned. rewrite !ang_one by assumption. rewrite <- Rmult_plus_distr_l. f_equal. rewrite <- RI_plus by (apply ang_integrable; assumption).
      apply ext_R. intros q2. assert (S : forall x y z : trig -> R, (forall i, x i + y i = z i) -> sum_ang (dG (get_angularcoeff d q2 l)) x + sum_ang (dG (get_angularcoeff d q2 l)) y = sum_ang (dG (get_angularcoeff d q2 l)) z).
      { intros x y z E. destruct D as [-> | [-> | ->]]; ring_dist; rewrite <- !E; ring. }
      apply S. intros i. ring. }
    unfold over_q2. cbv zeta. destruct lep as [l |]; [apply one |]. pose proof (one Le) as e. pose proof (one Lmu) as m. rewrite <- e, <- m. field.
  Qed.
End Angles.
Lemma over_ext (d : lnu) (f g : R -> lep3 -> R) (lep : lepton) : (forall q2 l, f q2 l = g q2 l) -> over_q2 d f lep = over_q2 d g lep.
Proof. intros E. unfold over_q2, nintegrate. cbv zeta. destruct lep as [l |]; rewrite ?(ext_R _ (fun q2 => g q2 l)) by (intros; apply E); [reflexivity |]. rewrite (ext_R (fun q2 => f q2 Le) (fun q2 => g q2 Le)), (ext_R (fun q2 => f q2 Lmu) (fun q2 => g q2 Lmu)) by (intros; apply E). reflexivity. Qed.
Lemma over_tot (d : lnu) (lep : lepton) : over_q2 d (fun q2 l => dBRdq2 d q2 (Lep l) PolAll) lep = BR_tot d lep PolAll.
Proof. destruct lep as [l |]; reflexivity. Qed.
Theorem C125_angle_bins (d : lnu) (lep : lepton) (a b c : R) : well_posed d ->
  BR_binned_costhl d a b lep + BR_binned_costhl d b c lep = BR_binned_costhl d a c lep /\
  BR_binned_costhV d a b lep + BR_binned_costhV d b c lep = BR_binned_costhV d a c lep /\
  BR_binned_phi d a b lep + BR_binned_phi d b c lep = BR_binned_phi d a c lep.
Proof. intros W. refine (conj _ (conj _ _)); [apply (ang_add d dG_dq2_dcosthl) | apply (ang_add d dG_dq2_dcosthV) | apply (ang_add d dG_dq2_dphi)]; try exact W; unfold is_dist; tauto. Qed.
Theorem C125_angle_total (d : lnu) (lep : lepton) (x : R) :
  BR_binned_costhl d (-1) 1 lep = BR_tot d lep PolAll /\ BR_binned_costhV d (-1) 1 lep = BR_tot d lep PolAll /\ BR_binned_phi d x (x + 2 * PI) lep = BR_tot d lep PolAll.
Proof.
  unfold BR_binned_costhl, BR_binned_costhV, BR_binned_phi. rewrite <- over_tot. refine (conj _ (conj _ _)); apply over_ext; intros q2 l; apply (C124_full d l q2 x).
Qed.
(** the distribution in an angle is the derivative of the bins: dBR/dcos = d/dx <BR>(a, x) *)
Lemma over_lin (d : lnu) (lep : lepton) (W : well_posed d) dG (ang : trig -> R) : is_dist dG ->
  over_q2 d (fun q2 l => if negb (kinem_allowed d q2 l) then 0 else BRfac d * tau_B d * sum_ang (dG (get_angularcoeff d q2 l)) ang) lep
  = avg lep (fun l => tau_B d * BRfac d * RInt (fun q2 => sum_ang (dG (get_angularcoeff d q2 l)) ang) (m_lep d l ^ 2) (endpoint d)).
Proof. intros D. unfold over_q2, nintegrate. cbv zeta. destruct lep as [l |]; cbn [avg]; rewrite !ang_one by assumption; reflexivity. Qed.
Definition JI (d : lnu) (l : lep3) (k : jkey) : R := RInt (fun q2 => get_angularcoeff d q2 l k) (m_lep d l ^ 2) (endpoint d).
Ltac irw P := lazymatch goal with
  | |- RInt (fun t => @?f t + @?g t) ?a ?b = _ => rewrite (RI_plus f g a b); [apply f_equal2; cbv beta; [irw P | irw P] | cbv beta; ilin P | cbv beta; ilin P]
  | |- RInt (fun t => ?c * @?f t) ?a ?b = _ => rewrite (RI_scal f a b c); [reflexivity | cbv beta; ilin P]
  end.
Lemma sum_J (d : lnu) (l : lep3) (W : well_posed d) dG (ang : trig -> R) : is_dist dG ->
  RInt (fun q2 => sum_ang (dG (get_angularcoeff d q2 l)) ang) (m_lep d l ^ 2) (endpoint d) = sum_ang (dG (JI d l)) ang.
Proof.
  pose proof (J_integrable d l W) as P. intros [-> | [-> | ->]]; ring_dist.
  - rewrite (ext_R _ (fun q2 => 3 / 8 * ang t1 * get_angularcoeff d q2 l J1c + 6 / 8 * ang t1 * get_angularcoeff d q2 l J1s + 3 / 8 * ang tc * get_angularcoeff d q2 l J6c + 6 / 8 * ang tc * get_angularcoeff d q2 l J6s
        + 3 / 8 * ang tc2 * get_angularcoeff d q2 l J2c + 6 / 8 * ang tc2 * get_angularcoeff d q2 l J2s)) by (intros; toR; field).
    transitivity (3 / 8 * ang t1 * JI d l J1c + 6 / 8 * ang t1 * JI d l J1s + 3 / 8 * ang tc * JI d l J6c + 6 / 8 * ang tc * JI d l J6s + 3 / 8 * ang tc2 * JI d l J2c + 6 / 8 * ang tc2 * JI d l J2s); [irw P | toR; field].
  - rewrite (ext_R _ (fun q2 => 9 / 8 * ang tcsq * get_angularcoeff d q2 l J1c + (- 3 / 8 * ang tcsq) * get_angularcoeff d q2 l J2c + 9 / 8 * ang tssq * get_angularcoeff d q2 l J1s + (- 3 / 8 * ang tssq) * get_angularcoeff d q2 l J2s)) by (intros; toR; field).
    transitivity (9 / 8 * ang tcsq * JI d l J1c + (- 3 / 8 * ang tcsq) * JI d l J2c + 9 / 8 * ang tssq * JI d l J1s + (- 3 / 8 * ang tssq) * JI d l J2s); [irw P | toR; field].
  - rewrite (ext_R _ (fun q2 => 1 / (8 * PI) * ang t1 * 3 * get_angularcoeff d q2 l J1c + 1 / (8 * PI) * ang t1 * 6 * get_angularcoeff d q2 l J1s + (- 1 / (8 * PI) * ang t1) * get_angularcoeff d q2 l J2c + (- 2 / (8 * PI) * ang t1) * get_angularcoeff d q2 l J2s
         + 1 / (2 * PI) * ang tc2 * get_angularcoeff d q2 l J3 + 1 / (2 * PI) * ang ts2 * get_angularcoeff d q2 l J9)) by (intros; toR; field; apply PI_neq0).
    transitivity (1 / (8 * PI) * ang t1 * 3 * JI d l J1c + 1 / (8 * PI) * ang t1 * 6 * JI d l J1s + (- 1 / (8 * PI) * ang t1) * JI d l J2c + (- 2 / (8 * PI) * ang t1) * JI d l J2s + 1 / (2 * PI) * ang tc2 * JI d l J3 + 1 / (2 * PI) * ang ts2 * JI d l J9); [irw P | toR; field; apply PI_neq0].
Qed.
Theorem C125_angle_density (d : lnu) (lep : lepton) (a b : R) : well_posed d ->
  BR_binned_costhl d a b lep = RInt (fun c => dBR_dcosthl d c lep) a b /\ BR_binned_costhV d a b lep = RInt (fun c => dBR_dcosthV d c lep) a b /\ BR_binned_phi d a b lep = RInt (fun p => dBR_dphi d p lep) a b.
Proof.
  intros W. unfold BR_binned_costhl, BR_binned_costhV, BR_binned_phi, dBR_dcosthl, dBR_dcosthV, dBR_dphi, dBR_dq2_dcosthl_binned, dBR_dq2_dcosthV_binned, dBR_dq2_dphi_binned, dBR_dq2_dcosthl, dBR_dq2_dcosthV, dBR_dq2_dphi, dBR_dq2_dang, dBR_dq2_dang_binned.
  assert (d1 : is_dist dG_dq2_dcosthl) by (unfold is_dist; tauto). assert (d2 : is_dist dG_dq2_dcosthV) by (unfold is_dist; tauto). assert (d3 : is_dist dG_dq2_dphi) by (unfold is_dist; tauto).
  assert (Q : forall (f : (trig -> R) -> lep3 -> R) (ad : R -> trig -> R) g, (forall l, int (fun x => f (ad x) l) a b) -> (forall l, f g l = RInt (fun x => f (ad x) l) a b) -> avg lep (fun l => tau_B d * BRfac d * f g l) = RInt (fun x => avg lep (fun l => tau_B d * BRfac d * f (ad x) l)) a b).
  { intros f ad g Hi E. destruct lep as [l |]; cbn [avg]; rewrite !E.
    - symmetry. apply (RI_scal (fun x => f (ad x) l)), Hi.
    - rewrite (ext_R (fun x => (tau_B d * BRfac d * f (ad x) Le + tau_B d * BRfac d * f (ad x) Lmu) / 2) (fun x => tau_B d * BRfac d / 2 * (f (ad x) Le + f (ad x) Lmu))) by (intros; toR; field).
      rewrite (RI_scal (fun x => f (ad x) Le + f (ad x) Lmu)) by (apply int_plus; apply Hi). rewrite (RI_plus (fun x => f (ad x) Le) (fun x => f (ad x) Lmu)) by apply Hi. toR. field. }
  assert (con : forall f : R -> R, (forall x, ex_derive f x) -> int f a b).
  { intros f E. apply (ex_RInt_continuous (V := R_CompleteNormedModule)). intros x _. apply (ex_derive_continuous (V := R_NormedModule)), E. }
  refine (conj _ (conj _ _)).
  - rewrite over_lin by assumption. rewrite (ext_R _ (fun c => avg lep (fun l => tau_B d * BRfac d * sum_ang (dG_dq2_dcosthl (JI d l)) (_cos_angle_diff c)))).
    + rewrite <- (Q (fun ang l => sum_ang (dG_dq2_dcosthl (JI d l)) ang) _cos_angle_diff (fun i => _cos_angle_int b i - _cos_angle_int a i)).
      * destruct lep as [l |]; cbn [avg]; rewrite !sum_J by assumption; reflexivity.
      * intros l. apply con. ring_dist. intros x. auto_derive. easy.
      * intros l. apply thl_bin.
    + intros c. rewrite over_lin by assumption. destruct lep as [l |]; cbn [avg]; rewrite !sum_J by assumption; reflexivity.
  - rewrite over_lin by assumption. rewrite (ext_R _ (fun c => avg lep (fun l => tau_B d * BRfac d * sum_ang (dG_dq2_dcosthV (JI d l)) (_cos_angle_diff c)))).
    + rewrite <- (Q (fun ang l => sum_ang (dG_dq2_dcosthV (JI d l)) ang) _cos_angle_diff (fun i => _cos_angle_int b i - _cos_angle_int a i)).
      * destruct lep as [l |]; cbn [avg]; rewrite !sum_J by assumption; reflexivity.
      * intros l. apply con. ring_dist. intros x. auto_derive. easy.
      * intros l. apply thV_bin.
    + intros c. rewrite over_lin by assumption. destruct lep as [l |]; cbn [avg]; rewrite !sum_J by assumption; reflexivity.
  - rewrite over_lin by assumption. rewrite (ext_R _ (fun c => avg lep (fun l => tau_B d * BRfac d * sum_ang (dG_dq2_dphi (JI d l)) (_angle_diff c)))).
    + rewrite <- (Q (fun ang l => sum_ang (dG_dq2_dphi (JI d l)) ang) _angle_diff (fun i => _angle_int b i - _angle_int a i)).
      * destruct lep as [l |]; cbn [avg]; rewrite !sum_J by assumption; reflexivity.
      * intros l. apply con. ring_dist. intros x. auto_derive. easy.
      * intros l. apply phi_bin.
    + intros c. rewrite over_lin by assumption. destruct lep as [l |]; cbn [avg]; rewrite !sum_J by assumption; reflexivity.
Qed.

(** ** C126: bounds *)
Theorem C126_bins (d : lnu) (lep : lepton) (A : pol) (a a' b' b q2 : R) : well_posed d -> a <= a' -> a' <= b' -> b' <= b ->
  0 <= dBRdq2 d q2 lep A /\ 0 <= BR_binned d a' b' lep A /\ BR_binned d a' b' lep A <= BR_binned d a b lep A /\ BR_binned d a b lep A <= BR_tot d lep A.
Proof.
  intros W L1 L2 L3. refine (conj _ (conj _ (conj _ _))).
  - exact (D_pos (fun l => m_lep d l ^ 2) (endpoint d) (Fq d A) (fun q2 lep => dBRdq2 d q2 lep A) (D_is d A) (F_pos d A W) q2 lep).
  - exact (bins_pos _ _ _ _ (F_int d A W) (D_is d A) (F_pos d A W) lep a' b' L2).
  - exact (bins_mono _ _ _ _ (F_int d A W) (D_is d A) (F_pos d A W) lep a a' b' b L1 L2 L3).
  - rewrite tot_is by exact W. apply (bins_total _ _ _ _ (los d W) (F_int d A W) (D_is d A) (F_pos d A W) lep a b). lra.
Qed.
Theorem C126_fractions (d : lnu) (lep : lepton) (A : pol) (a b : R) : well_posed d -> a <= b ->
  0 <= BR_binned_tot d a b lep A <= 1 /\ (BR_tot d lep A <> 0 -> BR_binned_tot d a b lep A = BR_binned d a b lep A / BR_tot d lep A) /\
  0 <= FL_binned d a b lep <= 1 /\ (BR_binned d a b lep PolAll <> 0 -> FL_binned d a b lep = BR_binned d a b lep PolL / BR_binned d a b lep PolAll).
Proof.
  intros W L. destruct (C126_bins d lep A a a b b 0 W (Rle_refl _) L (Rle_refl _)) as (_ & p & _ & t).
  destruct (C126_bins d lep PolL a a b b 0 W (Rle_refl _) L (Rle_refl _)) as (_ & pl & _). destruct (C126_bins d lep PolT a a b b 0 W (Rle_refl _) L (Rle_refl _)) as (_ & pt & _).
  destruct (C125_polarisation d lep a b W) as (e & _).
  refine (conj _ (conj _ (conj _ _))).
  - unfold BR_binned_tot. apply ratio0_01. lra.
  - intros _. unfold BR_binned_tot. apply ratio0_div.
  - change (FL_binned d a b lep) with (ratio0 (BR_binned d a b lep PolL) (BR_binned d a b lep PolAll)). apply ratio0_01. lra.
  - intros _. change (FL_binned d a b lep) with (ratio0 (BR_binned d a b lep PolL) (BR_binned d a b lep PolAll)). apply ratio0_div.
Qed.
Theorem C126_FL (d : lnu) (l : lep3) (q2 : R) : well_posed d ->
  (0 < dBRdq2 d q2 (Lep l) PolAll -> exists f, FL_diff d q2 (Lep l) = Ok f /\ 0 <= f <= 1 /\ f = dBRdq2 d q2 (Lep l) PolL / dBRdq2 d q2 (Lep l) PolAll) /\
  (exists f, FL_tot d (Lep l) = Ok f /\ 0 <= f <= 1 /\ (BR_tot d (Lep l) PolAll <> 0 -> f = BR_tot d (Lep l) PolL / BR_tot d (Lep l) PolAll)).
Proof.
  intros W. split.
  - cbn [dBRdq2]. intros P. eexists. split; [reflexivity |]. assert (I : in_range d l q2).
    { destruct (Rle_dec (m_lep d l ^ 2) q2) as [u | u]; [destruct (Rle_dec q2 (endpoint d)) as [v | v]; [split; assumption |] |]; rewrite lep_out in P by (unfold in_range; lra); lra. }
    rewrite (allowed_in d l q2 I). cbn [negb]. cbv zeta. rewrite lep_in in P by exact I. rewrite !lep_in by exact I. cbn [rate_of] in *.
    destruct (L_pos _ (J_dist_pos d l W q2 I)) as (a & b). pose proof (LT (get_angularcoeff d q2 l)) as e. set (J := get_angularcoeff d q2 l) in *.
    assert (n : tau_B d * BRfac d <> 0) by (intros z; rewrite z in P; lra). assert (v : vdGdq2 J <> 0) by (intros z; rewrite z in P; lra). assert (v0 : 0 < vdGdq2 J) by (destruct (Rle_lt_or_eq_dec 0 (vdGdq2 J)); [lra | assumption | exfalso; now apply v]).
    split; [| field; refine (conj v (conj _ _)); intros z; rewrite z in n; lra]. split; [apply Rmult_le_pos; [exact a | left; now apply Rinv_0_lt_compat] |]. apply (Rmult_le_reg_r (vdGdq2 J)); [exact v0 |]. unfold Rdiv. rewrite Rmult_assoc, Rinv_l by exact v. lra.
  - cbn [FL_tot par_m_lep bind]. eexists. split; [reflexivity |]. fold (endpoint d). destruct (C126_fractions d (Lep l) PolAll (m_lep d l ^ 2) (endpoint d) W (los d W l)) as (_ & _ & a & b). split; [exact a |].
    intros N. change (BR_tot d (Lep l)) with (_BR_tot d l) in *. unfold _BR_tot in *. fold (endpoint d) in *. now apply b.
Qed.
(** asymmetries of the whole decay *)
Lemma tot_JI (d : lnu) (l : lep3) (W : well_posed d) : RInt (fun q2 => vdGdq2 (get_angularcoeff d q2 l)) (m_lep d l ^ 2) (endpoint d) = vdGdq2 (JI d l).
Proof.
  pose proof (J_integrable d l W) as P. unfold vdGdq2.
  rewrite (ext_R _ (fun q2 => 3 / 2 * get_angularcoeff d q2 l J1s + 3 / 4 * get_angularcoeff d q2 l J1c + (- 1 / 2) * get_angularcoeff d q2 l J2s + (- 1 / 4) * get_angularcoeff d q2 l J2c)) by (intros; toR; field).
  transitivity (3 / 2 * JI d l J1s + 3 / 4 * JI d l J1c + (- 1 / 2) * JI d l J2s + (- 1 / 4) * JI d l J2c); [irw P | toR; field].
Qed.
Lemma afb_JI (d : lnu) (l : lep3) (W : well_posed d) : RInt (fun q2 => 3 / 8 * (2 * get_angularcoeff d q2 l J6s + get_angularcoeff d q2 l J6c)) (m_lep d l ^ 2) (endpoint d) = 3 / 8 * (2 * JI d l J6s + JI d l J6c).
Proof.
  pose proof (J_integrable d l W) as P.
  rewrite (ext_R _ (fun q2 => 3 / 4 * get_angularcoeff d q2 l J6s + 3 / 8 * get_angularcoeff d q2 l J6c)) by (intros; toR; field).
  transitivity (3 / 4 * JI d l J6s + 3 / 8 * JI d l J6c); [irw P | toR; field].
Qed.
Lemma BR_JI (d : lnu) (l : lep3) (W : well_posed d) : BR_tot d (Lep l) PolAll = tau_B d * BRfac d * vdGdq2 (JI d l).
Proof. rewrite tot_is by exact W. cbn [avg]. unfold Fq. rewrite (RI_scal (fun q2 => rate_of PolAll (get_angularcoeff d q2 l))) by now apply rate_integrable. cbn [rate_of]. rewrite tot_JI by exact W. reflexivity. Qed.
(** integrals of positive distributions are positive *)
Lemma JI_pos (d : lnu) (l : lep3) (W : well_posed d) : dist_pos (JI d l).
Proof.
  intros thK thl phi. pose proof (J_integrable d l W) as P.
  assert (E : RInt (fun q2 => distribution (get_angularcoeff d q2 l) thK thl phi) (m_lep d l ^ 2) (endpoint d) = distribution (JI d l) thK thl phi /\ int (fun q2 => distribution (get_angularcoeff d q2 l) thK thl phi) (m_lep d l ^ 2) (endpoint d)).
  { set (F := fun q2 => sin thK ^ 2 * get_angularcoeff d q2 l J1s + cos thK ^ 2 * get_angularcoeff d q2 l J1c + sin thK ^ 2 * cos (2 * thl) * get_angularcoeff d q2 l J2s + cos thK ^ 2 * cos (2 * thl) * get_angularcoeff d q2 l J2c
      + sin thK ^ 2 * sin thl ^ 2 * cos (2 * phi) * get_angularcoeff d q2 l J3 + sin (2 * thK) * sin (2 * thl) * cos phi * get_angularcoeff d q2 l J4 + sin (2 * thK) * sin thl * cos phi * get_angularcoeff d q2 l J5
      + sin thK ^ 2 * cos thl * get_angularcoeff d q2 l J6s + cos thK ^ 2 * cos thl * get_angularcoeff d q2 l J6c + sin (2 * thK) * sin thl * sin phi * get_angularcoeff d q2 l J7 + sin (2 * thK) * sin (2 * thl) * sin phi * get_angularcoeff d q2 l J8
      + sin thK ^ 2 * sin thl ^ 2 * sin (2 * phi) * get_angularcoeff d q2 l J9).
    assert (Fe : forall q2, distribution (get_angularcoeff d q2 l) thK thl phi = F q2) by (intros q2; unfold F, distribution; ring).
    split.
    - rewrite (ext_R _ F) by exact Fe. unfold F.
      transitivity (sin thK ^ 2 * JI d l J1s + cos thK ^ 2 * JI d l J1c + sin thK ^ 2 * cos (2 * thl) * JI d l J2s + cos thK ^ 2 * cos (2 * thl) * JI d l J2c
        + sin thK ^ 2 * sin thl ^ 2 * cos (2 * phi) * JI d l J3 + sin (2 * thK) * sin (2 * thl) * cos phi * JI d l J4 + sin (2 * thK) * sin thl * cos phi * JI d l J5
        + sin thK ^ 2 * cos thl * JI d l J6s + cos thK ^ 2 * cos thl * JI d l J6c + sin (2 * thK) * sin thl * sin phi * JI d l J7 + sin (2 * thK) * sin (2 * thl) * sin phi * JI d l J8
        + sin thK ^ 2 * sin thl ^ 2 * sin (2 * phi) * JI d l J9); [irw P | unfold distribution; toR; ring].
    - apply (ex_RInt_ext F); [intros; symmetry; apply Fe |]. unfold F. change (int F (m_lep d l ^ 2) (endpoint d)). unfold F. ilin P. }
  destruct E as (E & I). rewrite <- E. apply RI_pos; [now apply los | exact I |]. intros x X. apply J_dist_pos; [exact W | unfold in_range; lra].
Qed.
Theorem C126_AFB (d : lnu) (l : lep3) : well_posed d -> BR_tot d (Lep l) PolAll <> 0 ->
  let forward := BR_binned_costhl d 0 1 (Lep l) in let backward := BR_binned_costhl d (-1) 0 (Lep l) in
  AFB_tot d (Lep l) = Ok ((forward - backward) / (forward + backward)) /\ -1 <= (forward - backward) / (forward + backward) <= 1.
Proof.
  intros W N forward backward.
  assert (D : is_dist dG_dq2_dcosthl) by (unfold is_dist; tauto).
  assert (B : forall a b, BR_binned_costhl d a b (Lep l) = tau_B d * BRfac d * sum_ang (dG_dq2_dcosthl (JI d l)) (fun i => _cos_angle_int b i - _cos_angle_int a i)).
  { intros a b. unfold BR_binned_costhl, dBR_dq2_dcosthl_binned, dBR_dq2_dang_binned. rewrite over_lin by assumption. cbn [avg]. rewrite sum_J by assumption. reflexivity. }
  pose proof (BR_JI d l W) as T. rewrite T in N. assert (n1 : tau_B d * BRfac d <> 0) by (intros z; rewrite z in N; lra). assert (n2 : vdGdq2 (JI d l) <> 0) by (intros z; rewrite z in N; lra).
  assert (S : forward + backward = tau_B d * BRfac d * vdGdq2 (JI d l)). { unfold forward, backward. rewrite !B. unfold vdGdq2. ring_dist. field. }
  assert (F : forward - backward = tau_B d * BRfac d * (3 / 8 * (2 * JI d l J6s + JI d l J6c))). { unfold forward, backward. rewrite !B. ring_dist. field. }
  assert (V : 0 <= forward /\ 0 <= backward).
  { assert (G : forall a b, -1 <= a -> a <= b -> b <= 1 -> 0 <= BR_binned_costhl d a b (Lep l)).
    { intros a b h1 h2 h3. rewrite B, thl_bin. apply Rmult_le_pos; [now apply facs |]. apply RI_pos; [exact h2 | |].
      - ring_dist. apply (ex_RInt_continuous (V := R_CompleteNormedModule)). intros x _. apply (ex_derive_continuous (V := R_NormedModule)). auto_derive. easy.
      - intros x X. apply thl_pos; [now apply JI_pos | lra]. }
    unfold forward, backward. split; apply G; lra. }
  split.
  - cbn [AFB_tot Itot_norm obs_q2int par_m_lep bind]. unfold AFB_tot, Itot_norm, obs_q2int. cbn [par_m_lep bind]. unfold nintegrate. fold (endpoint d). rewrite tot_JI, afb_JI by exact W. f_equal. rewrite F, S. field. repeat split; try assumption; intros z; rewrite z in n1; lra.
  - assert (P : 0 < forward + backward) by (destruct (Rle_lt_or_eq_dec 0 (forward + backward)) as [x | x]; [lra | exact x | exfalso; apply N; lra]).
    split; apply (Rmult_le_reg_r (forward + backward)); try exact P; unfold Rdiv; rewrite Rmult_assoc, Rinv_l by lra; lra.
Qed.
Theorem C126_FLt (d : lnu) (l : lep3) : well_posed d -> 0 < BR_tot d (Lep l) PolAll ->
  exists f g, FLt_tot d (Lep l) = Ok f /\ FL_tot d (Lep l) = Ok g /\ -2 * g <= f <= g.
Proof.
  intros W N. rewrite BR_JI in N by exact W.
  assert (n1 : tau_B d * BRfac d <> 0) by (intros z; rewrite z in N; lra). assert (n2 : vdGdq2 (JI d l) <> 0) by (intros z; rewrite z in N; lra).
  pose proof (facs d W) as f0. assert (F0 : 0 < tau_B d * BRfac d) by (destruct f0 as [h | h]; [exact h | exfalso; now apply n1]).
  assert (V0 : 0 < vdGdq2 (JI d l)) by (apply (Rmult_lt_reg_l (tau_B d * BRfac d)); lra).
  assert (L : BR_tot d (Lep l) PolL = tau_B d * BRfac d * dGdq2_L (JI d l)).
  { rewrite tot_is by exact W. cbn [avg]. unfold Fq. rewrite (RI_scal (fun q2 => rate_of PolL (get_angularcoeff d q2 l))) by now apply rate_integrable. f_equal. cbn [rate_of]. unfold dGdq2_L. pose proof (J_integrable d l W) as P.
    rewrite (ext_R _ (fun q2 => 3 / 4 * get_angularcoeff d q2 l J1c + (- 1 / 4) * get_angularcoeff d q2 l J2c)) by (intros; toR; field).
    transitivity (3 / 4 * JI d l J1c + (- 1 / 4) * JI d l J2c); [irw P | toR; field]. }
  exists (- JI d l J2c / vdGdq2 (JI d l)), (dGdq2_L (JI d l) / vdGdq2 (JI d l)). refine (conj _ (conj _ _)).
  - unfold FLt_tot, Itot_norm, obs_q2int. cbn [par_m_lep bind]. unfold nintegrate. fold (endpoint d). rewrite tot_JI by exact W. f_equal. f_equal.
    rewrite (ext_R _ (fun q2 => (-1) * get_angularcoeff d q2 l J2c)) by (intros; toR; ring). rewrite (RI_scal (fun q2 => get_angularcoeff d q2 l J2c)) by now apply J_integrable. unfold JI. toR. ring.
  - destruct (proj2 (C126_FL d l 0 W)) as (f & e & _ & h). rewrite e. f_equal. rewrite h; [| rewrite BR_JI by exact W; lra]. rewrite L, BR_JI by exact W. field. repeat split; try assumption; intros z; rewrite z in n1; lra.
  - pose proof (JI_pos d l W) as P. pose proof (P 0 0 0) as a. pose proof (P 0 (PI / 2) 0) as b. pose proof (P 0 PI 0) as c. revert a b c. nodes. intros a b c. unfold dGdq2_L.
    split; apply (Rmult_le_reg_r (vdGdq2 (JI d l))); try exact V0; unfold Rdiv; rewrite ?Rmult_assoc, ?Rinv_l by exact n2; lra.
Qed.

(** ** C127: neutrino flavours *)
Lemma diag_wp (d : lnu) : well_posed d -> well_posed (diagonal d).
Proof. intros W. exact W. Qed.
Lemma lep3_eqb_refl (l : lep3) : lep3_eqb l l = true. Proof. now destruct l. Qed.
Lemma lep3_eqb_spec (l k : lep3) : lep3_eqb l k = true <-> l = k. Proof. destruct l, k; cbn; split; congruence. Qed.
Lemma wc_zero (c : C) : forall k, get_wceff_fccc (RtoC 0) (RtoC 0) (RtoC 0) (RtoC 0) (RtoC 0) (RtoC 0) k = RtoC 0.
Proof. intros k. unfold get_wceff_fccc. destruct k; unfold Cdiv; ring. Qed.
Lemma coeff_diag (d : lnu) (l : lep3) (q2 : R) (k : jkey) : well_posed d -> in_range d l q2 ->
  get_angularcoeff (diagonal d) q2 l k = angularcoeffs_general_v (amps_lnu d l l q2) q2 (m_B d) (m_M d) (m_lep d l) 0 k.
Proof.
  intros W I. rewrite (coeff_is (diagonal d) l (diag_wp d W) q2 k I). pose proof (range_phys d l W q2 I) as Ph.
  assert (Z : forall nu, nu <> l -> angularcoeffs_general_v (amps_lnu (diagonal d) l nu q2) q2 (m_B d) (m_M d) (m_lep d l) 0 k = 0).
  { intros nu n. unfold amps_lnu. apply J_zero; [exact Ph |]. assert (e : lep3_eqb l nu = false) by (destruct (lep3_eqb l nu) eqn:e; [apply lep3_eqb_spec in e; congruence | reflexivity]).
    cbn [diagonal wCVL wCVR wCSR wCSL wCT CVLSM]. rewrite e. apply (wc_zero (RtoC 0)). }
  assert (Y : angularcoeffs_general_v (amps_lnu (diagonal d) l l q2) q2 (m_B d) (m_M d) (m_lep d l) 0 k = angularcoeffs_general_v (amps_lnu d l l q2) q2 (m_B d) (m_M d) (m_lep d l) 0 k).
  { unfold amps_lnu. cbn [diagonal wCVL wCVR wCSR wCSL wCT CVLSM m_B m_M m_b m_light m_lep form GF Vij]. rewrite lep3_eqb_refl. reflexivity. }
  cbn [diagonal m_B m_M m_lep] in *. unfold over_nu. destruct l; rewrite Y; rewrite !Z by discriminate; ring.
Qed.
(** emission of other neutrinos never lowers a rate, and lepton-flavour violating coefficients that vanish contribute nothing *)
Lemma lep_le (d : lnu) (l : lep3) (A : pol) (q2 : R) : well_posed d -> dBRdq2_lep (diagonal d) q2 l A <= dBRdq2_lep d q2 l A.
Proof.
  intros W. rewrite !lep_clip. unfold clip. cbn [diagonal m_lep endpoint m_B m_M]. change (endpoint (diagonal d)) with (endpoint d).
  destruct (Rlt_dec q2 _) as [n | n]; [lra |]. destruct (Rlt_dec _ q2) as [m | m]; [lra |]. assert (I : in_range d l q2) by (unfold in_range; lra).
  change (tau_B (diagonal d)) with (tau_B d). change (BRfac (diagonal d)) with (BRfac d). apply Rmult_le_compat_l; [now apply facs |].
  set (X nu := angularcoeffs_general_v (amps_lnu d l nu q2) q2 (m_B d) (m_M d) (m_lep d l) 0).
  assert (E1 : rate_of A (get_angularcoeff (diagonal d) q2 l) = rate_of A (X l)). { destruct A; cbn [rate_of]; unfold dGdq2_L, dGdq2_T, vdGdq2; rewrite !coeff_diag by assumption; reflexivity. }
  assert (E2 : rate_of A (get_angularcoeff d q2 l) = rate_of A (X Le) + rate_of A (X Lmu) + rate_of A (X Ltau)).
  { destruct A; cbn [rate_of]; unfold dGdq2_L, dGdq2_T, vdGdq2; rewrite !(coeff_is d l W q2 _ I); unfold over_nu; fold (X Le) (X Lmu) (X Ltau); field. }
  assert (P : forall nu, 0 <= rate_of A (X nu)).
  { intros nu. pose proof (range_phys d l W q2 I) as Ph. assert (dp : dist_pos (X nu)) by (apply coeffs_pos; [exact Ph | apply W]). destruct (L_pos _ dp) as (a & b). pose proof (LT (X nu)) as e. destruct A; cbn [rate_of]; try assumption. rewrite <- e. lra. }
  rewrite E1, E2. pose proof (P Le). pose proof (P Lmu). pose proof (P Ltau). destruct l; lra.
Qed.
Theorem C127_other_neutrinos (d : lnu) (lep : lepton) (A : pol) (q2 a b : R) : well_posed d -> a <= b ->
  dBRdq2 (diagonal d) q2 lep A <= dBRdq2 d q2 lep A /\ BR_binned (diagonal d) a b lep A <= BR_binned d a b lep A /\ BR_tot (diagonal d) lep A <= BR_tot d lep A.
Proof.
  intros W L. assert (P : forall x l, dBRdq2 (diagonal d) x l A <= dBRdq2 d x l A).
  { intros x l. destruct l as [l |]; cbn [dBRdq2]; [now apply lep_le |]. pose proof (lep_le d Le A x W). pose proof (lep_le d Lmu A x W). lra. }
  assert (B : forall l x y, x <= y -> BR_binned (diagonal d) x y l A <= BR_binned d x y l A).
  { intros l x y h. unfold BR_binned, nintegrate. apply RI_le; [exact h | exact (D_int _ _ _ (fun q2 lep => dBRdq2 (diagonal d) q2 lep A) (F_int (diagonal d) A (diag_wp d W)) (D_is (diagonal d) A) l x y) | exact (D_int _ _ _ (fun q2 lep => dBRdq2 d q2 lep A) (F_int d A W) (D_is d A) l x y) |]. intros; apply P. }
  refine (conj (P q2 lep) (conj (B lep a b L) _)).
  assert (T : forall l, _BR_tot (diagonal d) l A <= _BR_tot d l A) by (intros l; unfold _BR_tot; apply B; fold (endpoint d); now apply los).
  destruct lep as [l |]; cbn [BR_tot]; [apply T |]. pose proof (T Le). pose proof (T Lmu). lra.
Qed.
(** with the Standard Model coefficient alone only one neutrino flavour occurs, and the amplitudes are those of that flavour *)
Theorem C127_no_mixing (d : lnu) (l : lep3) (q2 : R) : well_posed d -> in_range d l q2 ->
  (forall nu, nu <> l -> wCVL d l nu = RtoC 0 /\ wCVR d l nu = RtoC 0 /\ wCSR d l nu = RtoC 0 /\ wCSL d l nu = RtoC 0 /\ wCT d l nu = RtoC 0) ->
  forall thK thl phi, decay_density d l q2 thK thl phi = 9 / (32 * PI) * (16 / 3 * normalisation q2 (m_B d) (m_M d) (m_lep d l) 0 * helicity_sum q2 (m_lep d l) 0 (amps_lnu d l l q2) thK thl phi) * sin thK * sin thl /\
  dBRdq2 d q2 (Lep l) PolAll = dBRdq2 (diagonal d) q2 (Lep l) PolAll.
Proof.
  intros W I Z thK thl phi. pose proof (range_phys d l W q2 I) as Ph.
  assert (Y : forall nu k, nu <> l -> angularcoeffs_general_v (amps_lnu d l nu q2) q2 (m_B d) (m_M d) (m_lep d l) 0 k = 0).
  { intros nu k n. unfold amps_lnu. apply J_zero; [exact Ph |]. assert (e : lep3_eqb l nu = false) by (destruct (lep3_eqb l nu) eqn:e; [apply lep3_eqb_spec in e; congruence | reflexivity]).
    rewrite e. destruct (Z nu n) as (-> & -> & -> & -> & ->). apply (wc_zero (RtoC 0)). }
  assert (Q : forall k, get_angularcoeff d q2 l k = angularcoeffs_general_v (amps_lnu d l l q2) q2 (m_B d) (m_M d) (m_lep d l) 0 k).
  { intros k. rewrite (coeff_is d l W q2 k I). unfold over_nu. destruct l; [rewrite (Y Lmu k), (Y Ltau k) by discriminate | rewrite (Y Le k), (Y Ltau k) by discriminate | rewrite (Y Le k), (Y Lmu k) by discriminate]; ring. }
  split.
  - rewrite <- (density_is d l W q2 thK thl phi I). unfold density. rewrite <- (distribution_is (amps_lnu d l l q2) q2 (m_B d) (m_M d) (m_lep d l) 0 Ph thK thl phi). unfold distribution. rewrite !Q. reflexivity.
  - cbn [dBRdq2]. rewrite !lep_in by exact I. f_equal. cbn [rate_of]. unfold vdGdq2. rewrite !Q, !coeff_diag by assumption. reflexivity.
Qed.
(** flavours with equal masses and couplings have equal rates, and their ratios are one *)
Lemma univ_rate (d : lnu) (l1 l2 : lep3) (q2 : R) (A : pol) : well_posed d -> universal d l1 l2 -> dBRdq2_lep d q2 l1 A = dBRdq2_lep d q2 l2 A.
Proof.
  intros W (M & U). rewrite !lep_clip. unfold clip. rewrite M. destruct (Rlt_dec q2 _) as [n | n]; [reflexivity |]. destruct (Rlt_dec _ q2) as [m | m]; [reflexivity |]. f_equal.
  assert (I2 : in_range d l2 q2) by (unfold in_range; lra). assert (I1 : in_range d l1 q2) by (unfold in_range; rewrite M; lra).
  assert (X : forall k, get_angularcoeff d q2 l1 k = get_angularcoeff d q2 l2 k).
  { intros k. rewrite (coeff_is d l1 W q2 k I1), (coeff_is d l2 W q2 k I2).
    assert (S : forall nu, angularcoeffs_general_v (amps_lnu d l1 (swap l1 l2 nu) q2) q2 (m_B d) (m_M d) (m_lep d l1) 0 k = angularcoeffs_general_v (amps_lnu d l2 nu q2) q2 (m_B d) (m_M d) (m_lep d l2) 0 k).
    { intros nu. unfold amps_lnu. destruct (U nu) as (-> & -> & -> & -> & ->). rewrite M.
      assert (E : lep3_eqb l1 (swap l1 l2 nu) = lep3_eqb l2 nu) by (destruct l1, l2, nu; reflexivity). rewrite E. reflexivity. }
    unfold over_nu. rewrite <- !S. destruct l1, l2; cbn [swap lep3_eqb]; ring. }
  destruct A; cbn [rate_of]; unfold dGdq2_L, dGdq2_T, vdGdq2; rewrite !X; reflexivity.
Qed.
Theorem C127_universality (d : lnu) (l1 l2 : lep3) (A : pol) (a b : R) : well_posed d -> universal d l1 l2 ->
  (BR_binned d a b (Lep l1) A = BR_binned d a b (Lep l2) A /\ BR_tot d (Lep l1) A = BR_tot d (Lep l2) A) /\
  (BR_binned d a b (Lep l2) A <> 0 -> BR_binned_leptonflavour d a b (Lep l1) (Lep l2) A = 1) /\ (BR_tot d (Lep l2) A <> 0 -> BR_tot_leptonflavour d (Lep l1) (Lep l2) A = 1).
Proof.
  intros W U. assert (B : forall x y, BR_binned d x y (Lep l1) A = BR_binned d x y (Lep l2) A) by (intros x y; unfold BR_binned, nintegrate; apply ext_R; intros q2; cbn [dBRdq2]; now apply univ_rate).
  assert (T : BR_tot d (Lep l1) A = BR_tot d (Lep l2) A) by (cbn [BR_tot]; unfold _BR_tot; destruct U as (M & _); rewrite M; apply B).
  refine (conj (conj (B a b) T) (conj _ _)).
  - intros N. unfold BR_binned_leptonflavour. rewrite ratio0_div, B. field. exact N.
  - intros N. unfold BR_tot_leptonflavour. rewrite ratio0_div, T. field. exact N.
Qed.
(** ratios are the quotients of the published branching ratios, and never negative *)
Theorem C127_ratios (d : lnu) (n k : lepton) (A : pol) (a b : R) : well_posed d -> a <= b ->
  0 <= BR_binned_leptonflavour d a b n k A /\ 0 <= BR_tot_leptonflavour d n k A /\
  (BR_binned d a b k A <> 0 -> BR_binned_leptonflavour d a b n k A * BR_binned d a b k A = BR_binned d a b n A) /\ (BR_tot d k A <> 0 -> BR_tot_leptonflavour d n k A * BR_tot d k A = BR_tot d n A).
Proof.
  intros W L. assert (P : forall l, 0 <= BR_binned d a b l A /\ 0 <= BR_tot d l A).
  { intros l. destruct (C126_bins d l A a a b b 0 W (Rle_refl _) L (Rle_refl _)) as (_ & p & _ & t). lra. }
  destruct (P n) as (n1 & n2). destruct (P k) as (k1 & k2). unfold BR_binned_leptonflavour, BR_tot_leptonflavour.
  refine (conj _ (conj _ (conj _ _))); [now apply ratio0_pos | now apply ratio0_pos | intros N; rewrite ratio0_div; field; exact N | intros N; rewrite ratio0_div; field; exact N].
Qed.

(** ** C128: the average over light leptons is registered but cannot be computed *)
Theorem C128_refuted (d : lnu) (q2 : R) :
  FL_diff d q2 Ll = Err KeyError /\ FL_tot d Ll = Err KeyError /\ FLt_tot d Ll = Err KeyError /\ AFB_tot d Ll = Err KeyError /\ I3_tot d Ll = Err KeyError /\
  forall l, (exists x, FL_diff d q2 (Lep l) = Ok x) /\ (exists x, FL_tot d (Lep l) = Ok x) /\ (exists x, FLt_tot d (Lep l) = Ok x) /\ (exists x, AFB_tot d (Lep l) = Ok x) /\ (exists x, I3_tot d (Lep l) = Ok x).
Proof.
  refine (conj eq_refl (conj eq_refl (conj eq_refl (conj eq_refl (conj eq_refl _))))). intros l.
  unfold FL_diff, FL_tot, FLt_tot, AFB_tot, I3_tot, Itot_norm, obs_q2int. cbn [par_m_lep bind]. refine (conj _ (conj _ (conj _ (conj _ _)))); eexists; reflexivity.
Qed.

(** ** C129: pseudoscalar mesons *)
Definition Fp (d : lnu) (l : lep3) (q2 : R) : R := tau_B d * share neutral_p (meson d) * p_dGdq2 (get_angularcoeff_p d q2 l).
Lemma Fp_int (d : lnu) (W : well_posed d) (l : lep3) : int (Fp d l) (m_lep d l ^ 2) (endpoint d).
Proof. unfold Fp. apply (int_scal (fun q2 => p_dGdq2 (get_angularcoeff_p d q2 l))). now apply prate_int. Qed.
Lemma Dp_is (d : lnu) (q2 : R) (lep : lepton) : p_dBRdq2 d q2 lep = avg lep (fun l => clip (m_lep d l ^ 2) (endpoint d) (Fp d l) q2).
Proof. destruct lep as [l |]; cbn [p_dBRdq2 avg]; rewrite !plep_clip; reflexivity. Qed.
Lemma Fp_pos (d : lnu) (W : well_posed d) (l : lep3) (q2 : R) : m_lep d l ^ 2 <= q2 <= endpoint d -> 0 <= Fp d l q2.
Proof. intros I. unfold Fp. apply Rmult_le_pos; [| now apply prate_pos]. apply Rmult_le_pos; [apply W | left; apply share_pos]. Qed.
Lemma ptot_is (d : lnu) (W : well_posed d) (lep : lepton) : p_BR_tot d lep = avg lep (fun l => RInt (Fp d l) (m_lep d l ^ 2) (endpoint d)).
Proof.
  assert (E : forall l, _p_BR_tot d l = RInt (Fp d l) (m_lep d l ^ 2) (endpoint d)).
  { intros l. unfold _p_BR_tot, p_BR_binned, nintegrate. fold (endpoint d). rewrite (RI_ext _ (clip (m_lep d l ^ 2) (endpoint d) (Fp d l))); [| now apply los | intros x _; apply (Dp_is d x (Lep l))].
    apply clip_whole; [now apply los | now apply Fp_int]. }
  destruct lep as [l |]; cbn [p_BR_tot avg]; rewrite !E; reflexivity.
Qed.
Theorem C129_spectrum (d : lnu) (l : lep3) (q2 : R) : well_posed d ->
  (in_range d l q2 -> p_dBRdq2 d q2 (Lep l) = share neutral_p (meson d) * tau_B d * RInt (fun th => decay_density_p d l q2 th) 0 PI) /\ (~ in_range d l q2 -> p_dBRdq2 d q2 (Lep l) = 0) /\
  p_dBRdq2 d q2 Ll = mean Ll (fun l => p_dBRdq2 d q2 (Lep l)).
Proof.
  intros W. refine (conj _ (conj _ eq_refl)); intros I; rewrite Dp_is; cbn [avg]; unfold clip, in_range in *.
  - destruct (Rlt_dec q2 _) as [n | n]; [lra |]. destruct (Rlt_dec _ q2) as [m | m]; [lra |]. unfold Fp. rewrite prate_density by assumption. ring.
  - destruct (Rlt_dec q2 _) as [n | n]; [reflexivity |]. destruct (Rlt_dec _ q2) as [m | m]; [reflexivity |]. exfalso. apply I. lra.
Qed.
Theorem C129_bins (d : lnu) (lep : lepton) (a b c : R) : well_posed d ->
  p_BR_binned d a b lep + p_BR_binned d b c lep = p_BR_binned d a c lep /\ ((forall l, a <= m_lep d l ^ 2) -> endpoint d <= b -> p_BR_binned d a b lep = p_BR_tot d lep) /\
  p_BR_tot d lep = mean lep (fun l => share neutral_p (meson d) * tau_B d * RInt (fun q2 => RInt (fun th => decay_density_p d l q2 th) 0 PI) (m_lep d l ^ 2) (endpoint d)).
Proof.
  intros W. refine (conj (bins_add _ _ _ _ (Fp_int d W) (Dp_is d) lep a b c) (conj _ _)).
  - intros La Lb. rewrite ptot_is by exact W. exact (bins_cover _ _ _ _ (los d W) (Fp_int d W) (Dp_is d) lep a b La Lb).
  - rewrite ptot_is by exact W. assert (E : forall l, RInt (Fp d l) (m_lep d l ^ 2) (endpoint d) = share neutral_p (meson d) * tau_B d * RInt (fun q2 => RInt (fun th => decay_density_p d l q2 th) 0 PI) (m_lep d l ^ 2) (endpoint d)).
    { intros l. unfold Fp. rewrite (RI_scal (fun q2 => p_dGdq2 (get_angularcoeff_p d q2 l))) by now apply prate_int. rewrite (Rmult_comm (share _ _)). f_equal. apply RI_ext; [now apply los |]. intros x X. apply prate_density; [exact W | unfold in_range; lra]. }
    destruct lep as [l |]; cbn [avg mean]; rewrite !E; reflexivity.
Qed.
Theorem C129_bounds (d : lnu) (lep k : lepton) (a a' b' b q2 : R) : well_posed d -> a <= a' -> a' <= b' -> b' <= b ->
  0 <= p_dBRdq2 d q2 lep /\ 0 <= p_BR_binned d a' b' lep /\ p_BR_binned d a' b' lep <= p_BR_binned d a b lep /\ p_BR_binned d a b lep <= p_BR_tot d lep /\
  0 <= p_BR_binned_tot d a b lep <= 1 /\ (p_BR_tot d lep <> 0 -> p_BR_binned_tot d a b lep * p_BR_tot d lep = p_BR_binned d a b lep) /\
  (p_BR_binned d a b k <> 0 -> p_BR_binned_leptonflavour d a b lep k * p_BR_binned d a b k = p_BR_binned d a b lep) /\ (p_BR_tot d k <> 0 -> p_BR_tot_leptonflavour d lep k * p_BR_tot d k = p_BR_tot d lep).
Proof.
  intros W L1 L2 L3. assert (t : forall x y, x <= y -> p_BR_binned d x y lep <= p_BR_tot d lep).
  { intros x y h. rewrite ptot_is by exact W. exact (bins_total _ _ _ _ (los d W) (Fp_int d W) (Dp_is d) (Fp_pos d W) lep x y h). }
  assert (p : forall x y, x <= y -> 0 <= p_BR_binned d x y lep) by (intros x y h; exact (bins_pos _ _ _ _ (Fp_int d W) (Dp_is d) (Fp_pos d W) lep x y h)).
  assert (L : a <= b) by lra. refine (conj _ (conj (p _ _ L2) (conj _ (conj (t a b L) (conj _ (conj _ (conj _ _))))))).
  - exact (D_pos _ _ _ _ (Dp_is d) (Fp_pos d W) q2 lep).
  - exact (bins_mono _ _ _ _ (Fp_int d W) (Dp_is d) (Fp_pos d W) lep a a' b' b L1 L2 L3).
  - unfold p_BR_binned_tot. apply ratio0_01. split; [now apply p | now apply t].
  - intros N. unfold p_BR_binned_tot. rewrite ratio0_div. field. exact N.
  - intros N. unfold p_BR_binned_leptonflavour. rewrite ratio0_div. field. exact N.
  - intros N. unfold p_BR_tot_leptonflavour. rewrite ratio0_div. field. exact N.
Qed.

(** *** a decay with these properties: leptons of mass 1, mesons of masses 5 and 2 (so q2 lies between 1 and 9), one form factor *)
Definition zeros (l nu : lep3) : C := RtoC 0.
Definition ex_decay : lnu := Lnu (fun _ => 1) 5 2 1 4 1 1 (RtoC 1) 1 zeros zeros zeros zeros zeros (fun _ k => match k with FA1 => 1 | Fplus => 1 | _ => 0 end) "rho0".
Lemma ex_wp : well_posed ex_decay.
Proof. unfold well_posed, ex_decay. cbn [m_lep m_B m_M tau_B form]. refine (conj _ (conj _ (conj _ (conj _ _)))); try lra; [intros; lra |]. intros. apply continuous_const. Qed.
Lemma RC_ne (x : R) : x <> 0 -> RtoC x <> RtoC 0. Proof. intros N E. apply N. now apply RtoC_inj. Qed.
Lemma ex_amp (q2 : R) : aV (amps_lnu ex_decay Le Le q2) Hpl <> RtoC 0.
Proof.
  assert (S : sqrt 2 <> 0) by (apply sqrt_ne; lra).
  assert (E : aV (amps_lnu ex_decay Le Le q2) Hpl = (RtoC (4 * 1 / sqrt 2) * (Ci * / RtoC (2 * (5 + 2)) * (RtoC ((5 + 2) ^ 2) * / RtoC 2) * RtoC (-1)))%C).
  { unfold amps_lnu, ex_decay. cbn [m_lep m_B m_M tau_B form m_b m_light GF Vij CVLSM wCVL wCVR wCSR wCSL wCT lep3_eqb].
    unfold helicity_amps_v. cbv zeta. cbn [aV get_wceff_fccc]. unfold zeros, Cdiv. replace (RtoC (-1)) with (- RtoC 1)%C by (rewrite <- RtoC_opp; f_equal; lra). ring. }
  assert (i : Ci <> RtoC 0) by (intros e; apply (f_equal snd) in e; cbn in e; lra).
  rewrite E. apply Cmult_neq_0; [apply RC_ne; unfold Rdiv; intros e; apply Rmult_integral in e; destruct e as [e | e]; [lra | now apply (Rinv_neq_0_compat _ S)] |].
  assert (inv : forall x, x <> 0 -> (/ RtoC x)%C <> RtoC 0) by (intros x n; rewrite <- RtoC_inv by exact n; apply RC_ne; now apply Rinv_neq_0_compat).
  apply Cmult_neq_0; [| apply RC_ne; lra]. apply Cmult_neq_0; [apply Cmult_neq_0; [exact i | apply inv; lra] |]. apply Cmult_neq_0; [apply RC_ne; lra | apply inv; lra].
Qed.
Lemma ex_rate (q2 : R) : 1 < q2 < 9 -> 0 < vdGdq2 (angularcoeffs_general_v (amps_lnu ex_decay Le Le q2) q2 5 2 1 0).
Proof.
  intros Q. assert (Ph : physical q2 1 0) by (unfold physical; lra). set (J := angularcoeffs_general_v (amps_lnu ex_decay Le Le q2) q2 5 2 1 0).
  assert (D : dist_pos J) by (apply coeffs_pos; [exact Ph | lra]). destruct (L_pos J D) as (a & _). rewrite <- (LT J).
  assert (b : 0 < J J2s).
  { destruct (kin _ _ _ Ph) as (s & i & k & E1 & E2 & K). assert (NT : no_tensors (amps_lnu ex_decay Le Le q2)).
    { intros l. unfold amps_lnu, helicity_amps_v, ex_decay. cbv zeta. cbn [aT aTt wCT get_wceff_fccc]. unfold zeros. split; destruct l; ring. }
    unfold J. rewrite (nt_2s _ q2 5 2 1 0 s i k E1 E2 ltac:(lra) ltac:(lra) K NT). destruct K as [Ks Kp Ki Kk kk KE1 KE2 L1 L2 Kla e1 e2].
    assert (T : 0 < triangle q2 (1 ^ 2) (0 ^ 2)) by (unfold triangle; replace (q2 ^ 2 + (1 ^ 2) ^ 2 + (0 ^ 2) ^ 2 - 2 * q2 * 1 ^ 2 - 2 * 1 ^ 2 * 0 ^ 2 - 2 * q2 * 0 ^ 2) with ((q2 - 1) * (q2 - 1)) by ring; apply Rmult_lt_0_compat; lra).
    assert (T' : 0 < triangle (5 ^ 2) (2 ^ 2) q2) by (unfold triangle; replace ((5 ^ 2) ^ 2 + (2 ^ 2) ^ 2 + q2 ^ 2 - 2 * 5 ^ 2 * 2 ^ 2 - 2 * 2 ^ 2 * q2 - 2 * 5 ^ 2 * q2) with ((9 - q2) * (49 - q2)) by ring; apply Rmult_lt_0_compat; lra).
    assert (N0 : 0 < normalisation q2 5 2 1 0).
    { unfold normalisation. apply Rdiv_lt_0_compat; [apply Rmult_lt_0_compat; now apply sqrt_lt_R0 |]. pose proof PI_RGT_0 as pi. assert (0 < PI ^ 3) by now apply pow_lt. nra. }
    rewrite lambda_triangle in Kla by lra. assert (k2 : 0 < k ^ 2).
    { destruct (Rle_lt_or_eq_dec 0 (k ^ 2) (pow2_ge_0 k)) as [h | h]; [exact h | exfalso]. rewrite <- h in Kla. lra. }
    apply Rmult_lt_0_compat; [apply Rmult_lt_0_compat; lra |]. unfold trans_sq. rewrite <- !mod_bil. assert (P : forall z, 0 <= Cmod z ^ 2) by (intros; apply pow2_ge_0).
    assert (V : 0 < Cmod (aV (amps_lnu ex_decay Le Le q2) Hpl) ^ 2) by (apply pow_lt, Cmod_gt_0, ex_amp).
    pose proof (P (aV (amps_lnu ex_decay Le Le q2) Hmi)). pose proof (P (aA (amps_lnu ex_decay Le Le q2) Hpl)). pose proof (P (aA (amps_lnu ex_decay Le Le q2) Hmi)). lra. }
  pose proof (D (PI / 2) (PI / 2) 0) as u. pose proof (D (PI / 2) (PI / 2) (PI / 2)) as v. revert u v. nodes. intros u v. unfold dGdq2_T. lra.
Qed.
Lemma ex_J (q2 : R) : 1 <= q2 <= 9 -> forall k, get_angularcoeff ex_decay q2 Le k = angularcoeffs_general_v (amps_lnu ex_decay Le Le q2) q2 5 2 1 0 k.
Proof.
  intros Q k. assert (I : in_range ex_decay Le q2) by (unfold in_range, endpoint, ex_decay; cbn [m_lep m_B m_M]; lra). exact (coeff_diag ex_decay Le q2 k ex_wp I).
Qed.
Example C126_met : well_posed ex_decay /\ 0 < dBRdq2 ex_decay 4 (Lep Le) PolAll /\ 0 < BR_binned ex_decay 2 3 (Lep Le) PolAll /\ 0 < BR_tot ex_decay (Lep Le) PolAll /\ universal ex_decay Le Lmu /\ in_range ex_decay Le 4.
Proof.
  assert (F0 : 0 < tau_B ex_decay * BRfac ex_decay) by (rewrite share_v; apply Rmult_lt_0_compat; [cbn; lra | apply share_pos]).
  assert (I : forall q2, 1 <= q2 <= 9 -> in_range ex_decay Le q2) by (intros; unfold in_range, endpoint, ex_decay; cbn [m_lep m_B m_M]; lra).
  assert (P : forall q2, 1 < q2 < 9 -> 0 < dBRdq2 ex_decay q2 (Lep Le) PolAll).
  { intros q2 Q. cbn [dBRdq2]. rewrite lep_in by (apply I; lra). apply Rmult_lt_0_compat; [exact F0 |]. cbn [rate_of]. unfold vdGdq2. rewrite !ex_J by lra. now apply ex_rate. }
  assert (B : 0 < BR_binned ex_decay 2 3 (Lep Le) PolAll).
  { unfold BR_binned, nintegrate. set (cf t k := 16 / 3 * normalisation t 5 2 1 0 * coeff_of (flip t 1 0 (amps_lnu ex_decay Le Le t) 1) (flip t 1 0 (amps_lnu ex_decay Le Le t) (-1)) (same_v t 1 0 (amps_lnu ex_decay Le Le t)) (same_a t 1 0 (amps_lnu ex_decay Le Le t)) (scalar t 1 0 (amps_lnu ex_decay Le Le t)) (pseudo t 1 0 (amps_lnu ex_decay Le Le t)) k).
    assert (E : forall x, 2 <= x <= 3 -> dBRdq2 ex_decay x (Lep Le) PolAll = tau_B ex_decay * BRfac ex_decay * vdGdq2 (cf x)).
    { intros x X. cbn [dBRdq2]. rewrite lep_in by (apply I; lra). f_equal. cbn [rate_of]. unfold vdGdq2. rewrite !ex_J by lra. rewrite !coefficients by (unfold physical; lra). reflexivity. }
    rewrite (RI_ext _ (fun x => tau_B ex_decay * BRfac ex_decay * vdGdq2 (cf x))); [| lra | intros x X; apply E; lra].
    apply RInt_gt_0; [lra | |].
    - intros x X. rewrite <- E by lra. apply P. lra.
    - intros x X. assert (X0 : 0 < x) by lra. assert (C : amps_cont (fun t => amps_lnu ex_decay Le Le t) x) by (apply amps_v_cont; cbn; try lra; intros; apply rc_const).
      assert (c : forall k, rc (fun t => cf t k) x).
      { intros k. unfold cf. apply (rc_mult x (fun t => 16 / 3 * normalisation t 5 2 1 0)); [apply (rc_mult x (fun _ => 16 / 3)); [apply rc_const | apply rc_norm; lra] |].
        apply (rc_coeff (fun t => flip t 1 0 (amps_lnu ex_decay Le Le t) 1) (fun t => flip t 1 0 (amps_lnu ex_decay Le Le t) (-1)) (fun t => same_v t 1 0 (amps_lnu ex_decay Le Le t)) (fun t => same_a t 1 0 (amps_lnu ex_decay Le Le t)) (fun t => scalar t 1 0 (amps_lnu ex_decay Le Le t)) (fun t => pseudo t 1 0 (amps_lnu ex_decay Le Le t)) k x).
        + intros l. exact (cc_flip _ 1 0 x X0 C 1 l).
        + intros l. exact (cc_flip _ 1 0 x X0 C (-1) l).
        + intros l. exact (cc_same_v _ 1 0 x X0 C l).
        + intros l. exact (cc_same_a _ 1 0 x X0 C l).
        + exact (cc_scalar _ 1 0 x X0 C).
        + exact (cc_pseudo _ 1 0 x X0 C). }
      apply (rc_mult x (fun _ => tau_B ex_decay * BRfac ex_decay) (fun t => vdGdq2 (cf t))); [apply rc_const |]. unfold vdGdq2.
      apply (rc_minus x (fun t => 3 / 4 * (2 * cf t J1s + cf t J1c)) (fun t => 1 / 4 * (2 * cf t J2s + cf t J2c)));
        [apply (rc_mult x (fun _ => 3 / 4) (fun t => 2 * cf t J1s + cf t J1c)); [apply rc_const |]; apply (rc_plus x (fun t => 2 * cf t J1s) (fun t => cf t J1c)); [apply (rc_mult x (fun _ => 2) (fun t => cf t J1s)); [apply rc_const | apply c] | apply c]
        | apply (rc_mult x (fun _ => 1 / 4) (fun t => 2 * cf t J2s + cf t J2c)); [apply rc_const |]; apply (rc_plus x (fun t => 2 * cf t J2s) (fun t => cf t J2c)); [apply (rc_mult x (fun _ => 2) (fun t => cf t J2s)); [apply rc_const | apply c] | apply c]]. }
  refine (conj ex_wp (conj (P 4 ltac:(lra)) (conj B (conj _ (conj _ (I 4 ltac:(lra))))))).
  - destruct (C126_bins ex_decay (Lep Le) PolAll 2 2 3 3 0 ex_wp ltac:(lra) ltac:(lra) ltac:(lra)) as (_ & _ & _ & t). lra.
  - split; [reflexivity |]. intros nu. repeat split; reflexivity.
Qed.
Print Assumptions C124_differential.
Print Assumptions C125_angle_density.
Print Assumptions C126_AFB.
Print Assumptions C127_universality.
Print Assumptions C128_refuted.
Print Assumptions C129_bounds.
