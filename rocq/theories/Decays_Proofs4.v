(** * Proofs for the decay observables: charged currents with a vector meson *)
From Coq Require Import Reals Lra.
From Coquelicot Require Import Coquelicot.
From Verif Require Import Base Basics_Model Basics_Proofs Angular_Model Angular_Spec Angular_Proofs Angular_Proofs2 Angular_Proofs3 Angular_Proofs4 Angular_Proofs5 Angular_Proofs6 Angular_Proofs7 Angular_Proofs8 Angular_Proofs9 Decays_Model Decays_Spec Decays_Proofs Decays_Proofs2 Decays_Proofs3.
Local Open Scope R_scope.

Lemma coeff_zero (k : jkey) : coeff_of (fun _ => RtoC 0) (fun _ => RtoC 0) (fun _ => RtoC 0) (fun _ => RtoC 0) (RtoC 0) (RtoC 0) k = 0.
Proof.
  rewrite (coeff_ext _ _ _ _ _ _ (fun _ => RtoC 0 * RtoC 0)%C (fun _ => RtoC 0 * RtoC 0)%C (fun _ => RtoC 0 * RtoC 0)%C (fun _ => RtoC 0 * RtoC 0)%C (RtoC 0 * RtoC 0)%C (RtoC 0 * RtoC 0)%C); try (intros; ring); try ring.
  rewrite (coeff_scale (RtoC 0) (fun _ => RtoC 0) (fun _ => RtoC 0) (fun _ => RtoC 0) (fun _ => RtoC 0) (RtoC 0) (RtoC 0)). rewrite Cmod_0. ring.
Qed.
Lemma all_zero_spec (wc : wckey -> C) : all_zero wc = true -> forall k, wc k = RtoC 0.
Proof.
  unfold all_zero. rewrite forallb_forall. intros A k. specialize (A k). destruct (Ceq_dec (wc k) (RtoC 0)) as [e | e]; [exact e |].
  discriminate A. destruct k; simpl; tauto.
Qed.
Lemma amps_zero (q2 mB mV mqh mql m1 m2 : R) ff wc pre : (forall k, wc k = RtoC 0) -> let H := helicity_amps_v q2 mB mV mqh mql m1 m2 ff wc pre in
  (forall l, aV H l = RtoC 0) /\ (forall l, aA H l = RtoC 0) /\ aP H = RtoC 0 /\ aS H = RtoC 0 /\ (forall l, aT H l = RtoC 0) /\ (forall l, aTt H l = RtoC 0).
Proof.
  intros Z H. unfold H, helicity_amps_v. cbv zeta. cbn [aV aA aP aS aT aTt].
  refine (conj _ (conj _ (conj _ (conj _ (conj _ _))))); try (intros l; destruct l); rewrite ?Z; unfold Cdiv; ring.
Qed.
Lemma J_zero (q2 mB mV mqh mql m1 m2 : R) ff wc pre k : physical q2 m1 m2 -> (forall k, wc k = RtoC 0) ->
  angularcoeffs_general_v (helicity_amps_v q2 mB mV mqh mql m1 m2 ff wc pre) q2 mB mV m1 m2 k = 0.
Proof.
  intros Ph Z. rewrite coefficients by exact Ph. destruct (amps_zero q2 mB mV mqh mql m1 m2 ff wc pre Z) as (z1 & z2 & z3 & z4 & z5 & z6).
  set (H := helicity_amps_v _ _ _ _ _ _ _ _ _ _) in *.
  rewrite (coeff_ext _ _ _ _ _ _ (fun _ => RtoC 0) (fun _ => RtoC 0) (fun _ => RtoC 0) (fun _ => RtoC 0) (RtoC 0) (RtoC 0)); [rewrite coeff_zero; ring | | | | | |];
    try (intros l); unfold flip, same_v, same_a, scalar, pseudo; rewrite ?z1, ?z2, ?z3, ?z4, ?z5, ?z6; ring.
Qed.
(** phase space closes at the lower end *)
Lemma norm_threshold (mB mV m : R) : normalisation (m ^ 2) mB mV m 0 = 0.
Proof. unfold normalisation. replace (triangle (m ^ 2) (m ^ 2) (0 ^ 2)) with 0 by (unfold triangle; ring). rewrite sqrt_0. unfold Rdiv. ring. Qed.
Definition rate_of (A : pol) (J : jkey -> R) : R := match A with PolAll => vdGdq2 J | PolL => dGdq2_L J | PolT => dGdq2_T J end.

Lemma dist_sum (f : lep3 -> jkey -> R) thK thl phi : distribution (fun k => f Le k + f Lmu k + f Ltau k) thK thl phi = over_nu (fun nu => distribution (f nu) thK thl phi).
Proof. unfold distribution, over_nu. ring. Qed.
Lemma share_v (d : lnu) : BRfac d = share neutral_v (meson d).
Proof.
  unfold BRfac, share, neutral_v. destruct (in_dec string_dec (meson d) ["rho0"; "omega"]%string) as [i | i].
  - destruct i as [<- | [<- | []]]; reflexivity.
  - destruct (String.eqb_spec (meson d) "rho0") as [e | e]; [exfalso; apply i; rewrite e; simpl; tauto |].
    destruct (String.eqb_spec (meson d) "omega") as [e' | e']; [exfalso; apply i; rewrite e'; simpl; tauto | reflexivity].
Qed.
Lemma share_pos (n : list string) (s : string) : 0 < share n s.
Proof. unfold share. destruct (in_dec _ _ _); lra. Qed.

Ltac ilin P := lazymatch goal with
  | |- int (fun t => @?f t + @?g t) ?a ?b => apply (int_plus f g a b); cbv beta; ilin P
  | |- int (fun t => ?c * @?f t) ?a ?b => apply (int_scal f a b c); cbv beta; ilin P
  | _ => apply P end.
Section CC.
  Variables (d : lnu) (l : lep3).
  Hypothesis W : well_posed d.
  Notation ml := (m_lep d l).
  Lemma range_le : 0 < ml ^ 2 <= endpoint d.
  Proof using W. destruct W as (M & _). specialize (M l). unfold endpoint. split; [apply pow_lt; lra |]. apply pow_incr. lra. Qed.
  Lemma range_phys (q2 : R) : in_range d l q2 -> physical q2 ml 0.
  Proof using W. intros (a & b). pose proof range_le as r. destruct W as (M & _). specialize (M l). unfold physical. replace (ml + 0) with ml by ring. lra. Qed.
  Lemma coeff_nu (q2 : R) (nu : lep3) (k : jkey) : in_range d l q2 ->
    _get_angularcoeff d q2 l nu k = angularcoeffs_general_v (amps_lnu d l nu q2) q2 (m_B d) (m_M d) ml 0 k.
  Proof using W.
    intros I. pose proof (range_phys q2 I) as Ph. unfold _get_angularcoeff. destruct (negb (lep3_eqb l nu) && all_zero (wceff d l nu))%bool eqn:E.
    - apply andb_prop in E. destruct E as (_ & E). symmetry. unfold amps_lnu. apply J_zero; [exact Ph |]. exact (all_zero_spec _ E).
    - cbv zeta. destruct (proj1 I) as [lt | eq].
      + unfold prefactor. destruct (Rle_dec q2 (ml ^ 2)) as [n | n]; [lra | reflexivity].
      + rewrite !coefficients by exact Ph. rewrite <- eq, norm_threshold. ring.
  Qed.
  Lemma coeff_is (q2 : R) (k : jkey) : in_range d l q2 ->
    get_angularcoeff d q2 l k = over_nu (fun nu => angularcoeffs_general_v (amps_lnu d l nu q2) q2 (m_B d) (m_M d) ml 0 k).
  Proof using W. intros I. unfold get_angularcoeff, over_nu. rewrite !coeff_nu by exact I. reflexivity. Qed.
  Lemma dist_J (q2 thK thl phi : R) : in_range d l q2 ->
    distribution (get_angularcoeff d q2 l) thK thl phi = over_nu (fun nu => distribution (angularcoeffs_general_v (amps_lnu d l nu q2) q2 (m_B d) (m_M d) ml 0) thK thl phi).
  Proof using W.
    intros I. rewrite <- (dist_sum (fun nu => angularcoeffs_general_v (amps_lnu d l nu q2) q2 (m_B d) (m_M d) ml 0)). unfold distribution. rewrite !(coeff_is q2) by exact I. reflexivity.
  Qed.
  Lemma density_is (q2 thK thl phi : R) : in_range d l q2 -> density (get_angularcoeff d q2 l) thK thl phi = decay_density d l q2 thK thl phi.
  Proof using W.
    intros I. unfold density, decay_density. rewrite (dist_J q2) by exact I. unfold over_nu. rewrite !distribution_is by exact (range_phys q2 I). ring.
  Qed.
  Lemma rate_thl_is q2 x : in_range d l q2 -> rate_thl (decay_density d l q2) x = rate_thl (density (get_angularcoeff d q2 l)) x.
  Proof using W. intros I. unfold rate_thl. apply ext_R. intros p. apply ext_R. intros t. symmetry. now apply density_is. Qed.
  Lemma rate_thV_is q2 x : in_range d l q2 -> rate_thV (decay_density d l q2) x = rate_thV (density (get_angularcoeff d q2 l)) x.
  Proof using W. intros I. unfold rate_thV. apply ext_R. intros p. apply ext_R. intros t. symmetry. now apply density_is. Qed.
  Lemma rate_phi_is q2 x : in_range d l q2 -> rate_phi (decay_density d l q2) x = rate_phi (density (get_angularcoeff d q2 l)) x.
  Proof using W. intros I. unfold rate_phi. apply ext_R. intros p. apply ext_R. intros t. symmetry. now apply density_is. Qed.
  Lemma rate_all_is q2 : in_range d l q2 -> rate_all (decay_density d l q2) = rate_all (density (get_angularcoeff d q2 l)).
  Proof using W. intros I. unfold rate_all. apply ext_R. intros p. apply ext_R. intros u. apply ext_R. intros t. symmetry. now apply density_is. Qed.
  Lemma J_dist_pos (q2 : R) : in_range d l q2 -> dist_pos (get_angularcoeff d q2 l).
  Proof using W.
    intros I thK thl phi. rewrite (dist_J q2) by exact I. unfold over_nu. pose proof (range_phys q2 I) as Ph. destruct W as (_ & B & _).
    assert (P : forall nu, 0 <= distribution (angularcoeffs_general_v (amps_lnu d l nu q2) q2 (m_B d) (m_M d) ml 0) thK thl phi) by (intros nu; now apply coeffs_pos).
    pose proof (P Le). pose proof (P Lmu). pose proof (P Ltau). lra.
  Qed.
  Lemma J_integrable (k : jkey) : int (fun q2 => get_angularcoeff d q2 l k) (ml ^ 2) (endpoint d).
  Proof using W.
    pose proof range_le as r. apply (int_ext (fun q2 => over_nu (fun nu => angularcoeffs_general_v (amps_lnu d l nu q2) q2 (m_B d) (m_M d) ml 0 k))); [lra | |].
    - intros x X. symmetry. apply coeff_is. unfold in_range. lra.
    - unfold over_nu. destruct W as (M & B & V & T & Fc). specialize (M l).
      assert (P : forall nu, int (fun q2 => angularcoeffs_general_v (amps_lnu d l nu q2) q2 (m_B d) (m_M d) ml 0 k) (ml ^ 2) (endpoint d)).
      { intros nu. apply J_int; try lra. intros x X. unfold amps_lnu. apply amps_v_cont; try lra. intros f. apply (Fc l). exact X. }
      apply int_plus; [apply int_plus |]; apply P.
  Qed.
  (** any linear combination *)
  Lemma rate_integrable (A : pol) : int (fun q2 => rate_of A (get_angularcoeff d q2 l)) (ml ^ 2) (endpoint d).
  Proof using W.
    pose proof J_integrable as P.
    assert (Q : forall f g : R -> R, (forall x, f x = g x) -> int g (ml ^ 2) (endpoint d) -> int f (ml ^ 2) (endpoint d)).
    { intros f g E I. apply (int_ext g); [pose proof range_le; lra | intros; symmetry; apply E | exact I]. }
    destruct A; cbn [rate_of]; unfold dGdq2_L, dGdq2_T, vdGdq2.
    - apply (Q _ (fun q2 => 3 / 4 * get_angularcoeff d q2 l J1c + (- 1 / 4) * get_angularcoeff d q2 l J2c)); [intros; field |]. ilin P.
    - apply (Q _ (fun q2 => 3 / 2 * get_angularcoeff d q2 l J1s + (- 1 / 2) * get_angularcoeff d q2 l J2s)); [intros; field |]. ilin P.
    - apply (Q _ (fun q2 => 3 / 2 * get_angularcoeff d q2 l J1s + 3 / 4 * get_angularcoeff d q2 l J1c + (- 1 / 2) * get_angularcoeff d q2 l J2s + (- 1 / 4) * get_angularcoeff d q2 l J2c)); [intros; field |].
      ilin P.
  Qed.
  Lemma ang_integrable (dG : (jkey -> R) -> list (trig * R)) (ang : trig -> R) : (dG = dG_dq2_dcosthl \/ dG = dG_dq2_dcosthV \/ dG = dG_dq2_dphi) ->
    int (fun q2 => sum_ang (dG (get_angularcoeff d q2 l)) ang) (ml ^ 2) (endpoint d).
  Proof using W.
    pose proof J_integrable as P.
    assert (Q : forall f g : R -> R, (forall x, f x = g x) -> int g (ml ^ 2) (endpoint d) -> int f (ml ^ 2) (endpoint d)).
    { intros f g E I. apply (int_ext g); [pose proof range_le; lra | intros; symmetry; apply E | exact I]. }
    intros [-> | [-> | ->]]; ring_dist.
    - apply (Q _ (fun q2 => 3 / 8 * ang t1 * get_angularcoeff d q2 l J1c + 6 / 8 * ang t1 * get_angularcoeff d q2 l J1s + 3 / 8 * ang tc * get_angularcoeff d q2 l J6c + 6 / 8 * ang tc * get_angularcoeff d q2 l J6s
        + 3 / 8 * ang tc2 * get_angularcoeff d q2 l J2c + 6 / 8 * ang tc2 * get_angularcoeff d q2 l J2s)); [intros; field |].
      ilin P.
    - apply (Q _ (fun q2 => 9 / 8 * ang tcsq * get_angularcoeff d q2 l J1c + (- 3 / 8 * ang tcsq) * get_angularcoeff d q2 l J2c + 9 / 8 * ang tssq * get_angularcoeff d q2 l J1s + (- 3 / 8 * ang tssq) * get_angularcoeff d q2 l J2s)); [intros; field |].
      ilin P.
    - apply (Q _ (fun q2 => 1 / (8 * PI) * ang t1 * 3 * get_angularcoeff d q2 l J1c + 1 / (8 * PI) * ang t1 * 6 * get_angularcoeff d q2 l J1s + (- 1 / (8 * PI) * ang t1) * get_angularcoeff d q2 l J2c + (- 2 / (8 * PI) * ang t1) * get_angularcoeff d q2 l J2s
         + 1 / (2 * PI) * ang tc2 * get_angularcoeff d q2 l J3 + 1 / (2 * PI) * ang ts2 * get_angularcoeff d q2 l J9)); [intros; field; apply PI_neq0 |].
      ilin P.
  Qed.
  (** the published differential branching ratios are clipped functions *)
  Lemma lep_clip (q2 : R) (A : pol) : dBRdq2_lep d q2 l A = clip (ml ^ 2) (endpoint d) (fun q2 => tau_B d * BRfac d * rate_of A (get_angularcoeff d q2 l)) q2.
  Proof using. unfold dBRdq2_lep, kinem_allowed, clip, endpoint. destruct (Rlt_dec q2 _); [reflexivity |]. destruct (Rlt_dec _ q2); [reflexivity |]. cbn [negb]. cbv zeta. destruct A; cbn [rate_of]; ring. Qed.
  Lemma lep_in (q2 : R) (A : pol) : in_range d l q2 -> dBRdq2_lep d q2 l A = tau_B d * BRfac d * rate_of A (get_angularcoeff d q2 l).
  Proof using. intros (a & b). rewrite lep_clip. unfold clip. destruct (Rlt_dec q2 _) as [n | n]; [lra |]. destruct (Rlt_dec _ q2) as [m | m]; [lra | reflexivity]. Qed.
  Lemma lep_out (q2 : R) (A : pol) : ~ in_range d l q2 -> dBRdq2_lep d q2 l A = 0.
  Proof using. intros N. rewrite lep_clip. unfold clip. destruct (Rlt_dec q2 _) as [n | n]; [reflexivity |]. destruct (Rlt_dec _ q2) as [m | m]; [reflexivity | exfalso; apply N; unfold in_range; lra]. Qed.
  Lemma rate_of_pos (q2 : R) (A : pol) : in_range d l q2 -> 0 <= rate_of A (get_angularcoeff d q2 l).
  Proof using W.
    intros I. destruct (L_pos _ (J_dist_pos q2 I)) as (a & b). pose proof (LT (get_angularcoeff d q2 l)) as e. destruct A; cbn [rate_of]; try assumption. rewrite <- e. lra.
  Qed.
  Lemma facs : 0 <= tau_B d * BRfac d.
  Proof using W. rewrite share_v. destruct W as (_ & _ & _ & T & _). apply Rmult_le_pos; [exact T | left; apply share_pos]. Qed.
  Lemma lep_pos (q2 : R) (A : pol) : 0 <= dBRdq2_lep d q2 l A.
  Proof using W.
    rewrite lep_clip. unfold clip. destruct (Rlt_dec q2 _) as [n | n]; [lra |]. destruct (Rlt_dec _ q2) as [m | m]; [lra |].
    apply Rmult_le_pos; [apply facs | apply rate_of_pos; unfold in_range; lra].
  Qed.
  Lemma lep_int_le (a b : R) (A : pol) : a <= b -> int (fun q2 => dBRdq2_lep d q2 l A) a b.
  Proof using W.
    intros L. apply (int_ext (clip (ml ^ 2) (endpoint d) (fun q2 => tau_B d * BRfac d * rate_of A (get_angularcoeff d q2 l)))); [exact L | intros x _; symmetry; apply lep_clip |].
    apply clip_integrable; [exact L |]. intros _. apply int_scal, rate_integrable.
  Qed.
  Lemma lep_int (a b : R) (A : pol) : int (fun q2 => dBRdq2_lep d q2 l A) a b.
  Proof using W. destruct (Rle_dec a b) as [L | L]; [now apply lep_int_le |]. apply ex_RInt_swap, lep_int_le. lra. Qed.
  Lemma lep_cover (a b : R) (A : pol) : a <= ml ^ 2 -> endpoint d <= b -> RInt (fun q2 => dBRdq2_lep d q2 l A) a b = tau_B d * BRfac d * RInt (fun q2 => rate_of A (get_angularcoeff d q2 l)) (ml ^ 2) (endpoint d).
  Proof using W.
    intros L1 L2. pose proof range_le as r. rewrite (RI_ext _ (clip (ml ^ 2) (endpoint d) (fun q2 => tau_B d * BRfac d * rate_of A (get_angularcoeff d q2 l)))); [| lra | intros x _; apply lep_clip].
    rewrite clip_cover; [apply RI_scal, rate_integrable | lra | lra | lra | apply int_scal, rate_integrable].
  Qed.
  (** distributions in an angle, integrated over q2 *)
  Definition is_dist (dG : (jkey -> R) -> list (trig * R)) := dG = dG_dq2_dcosthl \/ dG = dG_dq2_dcosthV \/ dG = dG_dq2_dphi.
  Lemma ang_q2 (dG : (jkey -> R) -> list (trig * R)) (ang : trig -> R) : is_dist dG ->
    RInt (fun q2 => if negb (kinem_allowed d q2 l) then 0 else BRfac d * tau_B d * sum_ang (dG (get_angularcoeff d q2 l)) ang) (ml ^ 2) (endpoint d)
    = tau_B d * BRfac d * RInt (fun q2 => sum_ang (dG (get_angularcoeff d q2 l)) ang) (ml ^ 2) (endpoint d).
  Proof using W.
    intros D. pose proof range_le as r. rewrite (RI_ext _ (fun q2 => tau_B d * BRfac d * sum_ang (dG (get_angularcoeff d q2 l)) ang)); [now apply RI_scal, ang_integrable | lra |].
    intros x X. unfold kinem_allowed, endpoint in *. destruct (Rlt_dec x _) as [n | n]; [lra |]. destruct (Rlt_dec _ x) as [m | m]; [lra |]. cbn [negb]. ring.
  Qed.
End CC.
