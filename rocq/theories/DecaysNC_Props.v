(** * Theorems about neutral-current decays: C130 - C133 *)
From Coq Require Import Reals Lra.
From Coquelicot Require Import Coquelicot.
From Verif Require Import Base Basics_Model Basics_Proofs Angular_Model Angular_Spec Angular_Proofs Angular_Proofs2 Angular_Proofs3 Angular_Proofs4 Angular_Proofs5 Angular_Proofs6 Angular_Proofs7 Angular_Proofs8 Angular_Proofs9 Decays_Model Decays_Spec Decays_Proofs Decays_Proofs2 Decays_Proofs3 Decays_Proofs4 Decays_Proofs5 DecaysNC_Model DecaysNC_Spec DecaysNC_Proofs DecaysNC_Proofs2 DecaysNC_Proofs3 DecaysNC_Proofs4.
Local Open Scope string_scope.
Local Open Scope R_scope.

(** ** C130: the integration routines *)
Theorem C130_pole (f : R -> R) (a b : R) : (0 < a -> 0 < b) -> ex_RInt f a b -> nintegrate_pole f a b = RInt f a b.
Proof. intros P I. now apply pole_is. Qed.
(** in particular for an integrand with a pole at zero *)
Theorem C130_pole_exact (c a b : R) : 0 < a -> 0 < b -> nintegrate_pole (fun q2 => c / q2) a b = c * ln (b / a).
Proof. intros A B. destruct (pole_int c a b A B) as (I & E). rewrite <- E. apply pole_is; [intros; exact B | exact I]. Qed.
Theorem C130_complex (f : R -> C) (a b : R) (z : C) : is_RInt f a b z -> nintegrate_complex f a b = z.
Proof.
  intros I. unfold nintegrate_complex. assert (E1 : is_RInt (fun x => fst (f x)) a b (fst z)) by (apply (is_RInt_fct_extend_fst f a b z I)). assert (E2 : is_RInt (fun x => snd (f x)) a b (snd z)) by (apply (is_RInt_fct_extend_snd f a b z I)).
  rewrite (is_RInt_unique _ _ _ _ E1), (is_RInt_unique _ _ _ _ E2). destruct z as [x y]. unfold Ci, RtoC, Cplus, Cmult. cbn [fst snd]. f_equal; ring.
Qed.

(** ** C131: B -> V l l, spectra and bins *)
Section BV.
  Variable d : vll.
  Lemma ave_f : linear (fun J J' => l_tau d * dGdq2_ave J J').
  Proof. apply (linear_ext (fun J J' => (l_tau d / 2) * dGdq2 J + (l_tau d / 2) * dGdq2 J')); [intros; unfold dGdq2_ave; field | apply linear_rate]. Qed.
  Lemma dBR_obs q2 : BVll_dBRdq2 d q2 = BVll_obs d (fun J J' => l_tau d * dGdq2_ave J J') q2.
  Proof. unfold BVll_dBRdq2, BVll_obs. reflexivity. Qed.
  Lemma dBR_int a b : BVll_dBRdq2_int d a b = BVll_obs_int d (fun J J' => l_tau d * dGdq2_ave J J') a b.
  Proof. reflexivity. Qed.
  Hypothesis W : vll_ok d.
  Lemma rate_h (h : R -> amps) (q2 : R) : thr d <= q2 -> rate_all (vll_density d h q2) = dGdq2 (angularcoeffs_general_v (h q2) q2 (l_mB d) (l_mV d) (l_ml d) (l_ml d)).
  Proof using W.
    intros L. pose proof (phys_d d W q2 L) as Ph. transitivity (rate_all (density (angularcoeffs_general_v (h q2) q2 (l_mB d) (l_mV d) (l_ml d) (l_ml d)))); [| apply all_is]. unfold rate_all.
    apply ext_R. intros phi. apply ext_R. intros thl. apply ext_R. intros thK. unfold density, vll_density. rewrite <- distribution_is by exact Ph. ring.
  Qed.
End BV.
Definition both_rates (d : vll) (q2 : R) : R := rate_all (vll_density d (l_h d) q2) + rate_all (vll_density d (l_hbar d) q2).
Theorem C131_spectrum (d : vll) (q2 : R) : vll_ok d ->
  (thr d <= q2 <= top d -> BVll_dBRdq2 d q2 = l_tau d * ((rate_all (vll_density d (l_h d) q2) + rate_all (vll_density d (l_hbar d) q2)) / 2)) /\
  (~ (thr d <= q2 <= top d) -> BVll_dBRdq2 d q2 = 0) /\ 0 <= BVll_dBRdq2 d q2.
Proof.
  intros W. assert (A : thr d <= q2 <= top d -> BVll_dBRdq2 d q2 = l_tau d * ((rate_all (vll_density d (l_h d) q2) + rate_all (vll_density d (l_hbar d) q2)) / 2)).
  { intros L. unfold BVll_dBRdq2. rewrite in_allowed by exact L. cbn [negb]. rewrite !(rate_h d W) by lra. reflexivity. }
  assert (B : ~ (thr d <= q2 <= top d) -> BVll_dBRdq2 d q2 = 0) by (intros L; unfold BVll_dBRdq2; rewrite out_allowed by exact L; reflexivity).
  refine (conj A (conj B _)). destruct (Rle_dec (thr d) q2) as [l1 | l1]; [destruct (Rle_dec q2 (top d)) as [l2 | l2] |]; [| rewrite B by lra; lra | rewrite B by lra; lra].
  rewrite A by lra. destruct W as (m & L & HB & t & I). apply Rmult_le_pos; [exact t |]. rewrite !(rate_h d (conj m (conj L (conj HB (conj t I))))) by lra.
  assert (Ph : physical q2 (l_ml d) (l_ml d)) by (apply phys_d; [exact (conj m (conj L (conj HB (conj t I)))) | lra]).
  assert (p := rate_pos (l_h d q2) q2 (l_mB d) (l_mV d) (l_ml d) (l_ml d) Ph HB). assert (p' := rate_pos (l_hbar d q2) q2 (l_mB d) (l_mV d) (l_ml d) (l_ml d) Ph HB). lra.
Qed.
(** a binned branching ratio is the average of the spectrum over the bin; adjacent bins add up *)
Theorem C131_bins (d : vll) (a b c : R) : vll_ok d -> a <= b -> b <= c ->
  ex_RInt (BVll_dBRdq2 d) a b /\ (b - a) * BVll_dBRdq2_int d a b = RInt (BVll_dBRdq2 d) a b /\
  (b - a) * BVll_dBRdq2_int d a b + (c - b) * BVll_dBRdq2_int d b c = (c - a) * BVll_dBRdq2_int d a c /\ (Rmin b (top d) <= Rmax a (thr d) -> BVll_dBRdq2_int d a b = 0).
Proof.
  intros W L1 L2.
  assert (I : forall x y, ex_RInt (BVll_dBRdq2 d) x y) by (intros x y; apply (ex_RInt_ext (BVll_obs d (fun J J' => l_tau d * dGdq2_ave J J'))); [reflexivity | apply (obs_int_any d W), ave_f]).
  assert (E : forall x y, x <= y -> (y - x) * BVll_dBRdq2_int d x y = RInt (BVll_dBRdq2 d) x y) by (intros x y L; exact (obs_int_is d W _ x y (ave_f d) L)).
  refine (conj (I a b) (conj (E a b L1) (conj _ _))).
  - rewrite !E by lra. symmetry. apply RI_chasles; apply I.
  - intros O. unfold BVll_dBRdq2_int. rewrite empty_true by exact O. reflexivity.
Qed.
(** bins that cover the kinematic range: lifetime times the integral of the squared amplitudes over the whole phase space *)
Theorem C131_total (d : vll) (a b : R) : vll_ok d -> a <= thr d -> top d <= b ->
  (b - a) * BVll_dBRdq2_int d a b = l_tau d * (RInt (fun q2 => (rate_all (vll_density d (l_h d) q2) + rate_all (vll_density d (l_hbar d) q2)) / 2) (thr d) (top d)).
Proof.
  intros W La Lb. pose proof (range_d d W) as r. assert (Lab : a <= b) by lra. destruct (C131_bins d a b b W Lab (Rle_refl b)) as (_ & E & _). rewrite E.
  rewrite (ext_R _ (clip (thr d) (top d) (fun q2 => l_tau d * dGdq2_ave (Jv d q2) (Jv' d q2)))) by (intros; rewrite dBR_obs; apply obs_clip).
  assert (I := full_int d W _ (ave_f d)). rewrite clip_cover by (try assumption; lra).
  rewrite RI_scal by (apply full_int; [exact W | apply linear_ave]). f_equal. apply RI_ext; [lra |]. intros x X. rewrite !(rate_h d W) by lra. reflexivity.
Qed.
(** every registered observable other than the CP asymmetry is a ratio of published numerator and denominator ... *)
Theorem C131_names (d : vll) (name : string) (q2 a b : R) :
  (bvll_diff d name q2 <> None <-> name = "ACP" \/ published name <> None) /\ (bvll_bin d name a b <> None <-> name = "ACP" \/ published name <> None).
Proof.
  assert (B : bvll_bin d name a b <> None <-> bvll_diff d name q2 <> None).
  { unfold bvll_bin, bvll_diff. destruct (entry name _observables); [split; discriminate |]. destruct (entry name _observables_p); [split; discriminate |]. destruct (entry name _observables_pprime); cbn [option_map]; [split; discriminate | tauto]. }
  assert (A : bvll_diff d name q2 <> None <-> name = "ACP" \/ published name <> None); [| split; [exact A | rewrite B; exact A]].
  split; [apply registered |]. intros [-> | H]; [unfold bvll_diff; cbn [entry _observables]; eat; cbv iota; discriminate |].
  destruct (published name) as [(n & e) |] eqn:E; [| congruence]. apply published_pub in E. unfold bvll_diff. destruct E as [? ? ? E1 | ? ? ? ? ? E1 E2 | ? ? ? ? E1 E2 E3]; rewrite E1, ?E2, ?E3; discriminate.
Qed.
(** ... of the coefficients at q2, or integrated over the part of the bin in the kinematic range; zero outside the range *)
Theorem C131_differential (d : vll) (name : string) n e (q2 : R) : vll_ok d -> published name = Some (n, e) ->
  (thr d <= q2 <= top d -> e (Jv d q2) (Jv' d q2) <> 0 -> bvll_diff d name q2 = Some (n (Jv d q2) (Jv' d q2) / e (Jv d q2) (Jv' d q2))) /\
  (~ (thr d <= q2 <= top d) -> bvll_diff d name q2 = Some 0).
Proof.
  intros W P. pose proof (proj1 (proj1 (C131_names d name q2 0 0)) ) as _. split; [intros L N; apply pub_at; [now apply published_pub | exact L | exact N] |].
  intros O. destruct (bvll_diff d name q2) as [x |] eqn:E; [f_equal; exact (diff_out d name q2 x O E) |]. exfalso. apply (proj2 (proj1 (C131_names d name q2 0 0))); [right; rewrite P; discriminate | exact E].
Qed.
Theorem C131_binned (d : vll) (name : string) n e (a b : R) : vll_ok d -> published name = Some (n, e) ->
  let I J := over J (Rmax a (thr d)) (Rmin b (top d)) in
  (Rmax a (thr d) < Rmin b (top d) -> e (I (Jv d)) (I (Jv' d)) <> 0 -> bvll_bin d name a b = Some (n (I (Jv d)) (I (Jv' d)) / e (I (Jv d)) (I (Jv' d)))) /\
  (Rmin b (top d) <= Rmax a (thr d) -> bvll_bin d name a b = Some 0).
Proof.
  intros W P I. split; [intros L N; apply pub_bin; [exact W | now apply published_pub | exact L | exact N] |].
  intros O. destruct (bvll_bin d name a b) as [x |] eqn:E; [f_equal; exact (bin_out d name a b x O E) |]. exfalso. apply (proj2 (proj2 (C131_names d name 0 a b))); [right; rewrite P; discriminate | exact E].
Qed.
(** continuous amplitudes are enough *)
Theorem C131_integrable (d : vll) : 0 < l_ml d -> 2 * l_ml d <= l_mB d - l_mV d -> 0 < l_mB d -> 0 <= l_tau d ->
  (forall x, thr d <= x <= top d -> amps_cont (l_h d) x /\ amps_cont (l_hbar d) x) -> vll_ok d.
Proof.
  intros m L HB t C. assert (r : 0 < thr d <= top d).
  { unfold thr, top. split; [apply Rmult_lt_0_compat; [lra | apply pow_lt; exact m] |]. replace (4 * l_ml d ^ 2) with ((2 * l_ml d) ^ 2) by ring. apply pow_incr. lra. }
  assert (S : (l_ml d + l_ml d) ^ 2 <= thr d) by (unfold thr; right; ring).
  refine (conj m (conj L (conj HB (conj t _)))). assert (m0 : 0 <= l_ml d) by lra. intros k.
  split; [exact (J_int (l_h d) (l_mB d) (l_mV d) (l_ml d) (l_ml d) (thr d) (top d) k HB r m0 m0 S (fun x X => proj1 (C x X))) | exact (J_int (l_hbar d) (l_mB d) (l_mV d) (l_ml d) (l_ml d) (thr d) (top d) k HB r m0 m0 S (fun x X => proj2 (C x X)))].
Qed.

(** ** C132: bounds *)
Section Bounds.
  Variable d : vll.
  Hypothesis W : vll_ok d.
  Let HB : 0 < l_mB d. Proof. apply W. Qed.
  Lemma pt_rate q2 : thr d <= q2 <= top d -> 0 <= total (Jv d q2) (Jv' d q2) /\ -1 * (Jv d q2 J2c + Jv' d q2 J2c) <= total (Jv d q2) (Jv' d q2) /\ Rabs (Jv d q2 J6s + Jv' d q2 J6s) <= total (Jv d q2) (Jv' d q2).
  Proof using W HB.
    intros L. assert (Ph : physical q2 (l_ml d) (l_ml d)) by (apply phys_d; [exact W | lra]). rewrite total_is.
    assert (p := rate_pos (l_h d q2) q2 (l_mB d) (l_mV d) (l_ml d) (l_ml d) Ph HB). assert (p' := rate_pos (l_hbar d q2) q2 (l_mB d) (l_mV d) (l_ml d) (l_ml d) Ph HB).
    assert (u := FL_upper (l_h d q2) q2 (l_mB d) (l_mV d) (l_ml d) (l_ml d) Ph HB). assert (u' := FL_upper (l_hbar d q2) q2 (l_mB d) (l_mV d) (l_ml d) (l_ml d) Ph HB).
    assert (v := J6s_bound (l_h d q2) q2 (l_mB d) (l_mV d) (l_ml d) (l_ml d) Ph HB). assert (v' := J6s_bound (l_hbar d q2) q2 (l_mB d) (l_mV d) (l_ml d) (l_ml d) Ph HB).
    fold (Jv d q2) in *. fold (Jv' d q2) in *. refine (conj _ (conj _ _)); [lra | lra |]. eapply Rle_trans; [apply Rabs_triang | lra].
  Qed.
  Variables (a b : R).
  Hypothesis L : Rmax a (thr d) < Rmin b (top d).
  Let lo := Rmax a (thr d).
  Let hi := Rmin b (top d).
  Notation I := (over (Jv d) lo hi).
  Notation I' := (over (Jv' d) lo hi).
  Let P : (forall k, int (fun q2 => Jv d q2 k) lo hi) /\ (forall k, int (fun q2 => Jv' d q2 k) lo hi).
  Proof using W L. apply J_part; [exact W | apply Rmax_r | unfold lo, hi; lra | apply Rmin_r]. Qed.
  Lemma inside q2 : lo < q2 < hi -> thr d <= q2 <= top d.
  Proof using. intros Q. assert (m1 := Rmax_r a (thr d)). assert (m2 := Rmin_r b (top d)). unfold lo, hi in *. lra. Qed.
  Lemma bin_rate : 0 <= total I I'.
  Proof using W L P HB. apply (linear_pos (Jv d) (Jv' d) lo hi (proj1 P) (proj2 P) total linear_total); [unfold lo, hi; lra |]. intros q2 Q. now apply pt_rate, inside. Qed.
  Lemma bin_FL_le : -1 * (I J2c + I' J2c) <= total I I'.
  Proof using W L P HB.
    assert (F : linear (fun J J' => 1 * total J J' + -1 * (-1 * (J J2c + J' J2c)))) by (apply linear_plus; [apply linear_total | apply linear_S]).
    assert (Q : 0 <= 1 * total I I' + -1 * (-1 * (I J2c + I' J2c))); [| lra].
    apply (linear_pos (Jv d) (Jv' d) lo hi (proj1 P) (proj2 P) _ F); [unfold lo, hi; lra |]. intros q2 Q. destruct (pt_rate q2 (inside q2 Q)) as (_ & B & _). lra.
  Qed.
  Lemma bin_6s : Rabs (I J6s + I' J6s) <= total I I'.
  Proof using W L P HB.
    assert (F : forall s, linear (fun J J' => 1 * total J J' + 1 * (s * (J J6s + J' J6s)))) by (intros; apply linear_plus; [apply linear_total | apply linear_S]).
    assert (Q : forall s, s = 1 \/ s = -1 -> 0 <= 1 * total I I' + 1 * (s * (I J6s + I' J6s))).
    { intros s Hs. apply (linear_pos (Jv d) (Jv' d) lo hi (proj1 P) (proj2 P) _ (F s)); [unfold lo, hi; lra |]. intros q2 Q. destruct (pt_rate q2 (inside q2 Q)) as (_ & _ & B). apply Rabs_le_between in B. destruct Hs as [-> | ->]; lra. }
    pose proof (Q 1 (or_introl eq_refl)). pose proof (Q (-1) (or_intror eq_refl)). apply Rabs_le_between. lra.
  Qed.
  Lemma bin_FL_pos : tensor_free d -> 0 <= -1 * (I J2c + I' J2c).
  Proof using W L P HB.
    intros T. apply (linear_pos (Jv d) (Jv' d) lo hi (proj1 P) (proj2 P) _ (linear_S J2c (-1))); [unfold lo, hi; lra |]. intros q2 Q. apply inside in Q.
    destruct (signs d q2 q2 W T (proj1 Q) (Rle_refl q2) (proj2 Q)) as (_ & _ & s & s'). lra.
  Qed.
  Lemma lo_thr : thr d <= lo. Proof using. apply Rmax_r. Qed.
  Lemma bin_369 : tensor_free d -> 0 <= 2 * (I J2s + I' J2s) /\ (1 * (I J3 + I' J3)) ^ 2 + (1 * (I J9 + I' J9)) ^ 2 + (sqrt (beta2 d lo) / 2 * (I J6s + I' J6s)) ^ 2 <= (2 * (I J2s + I' J2s)) ^ 2.
  Proof using W L P.
    intros T. apply (cs_three (Jv d) (Jv' d) lo hi (proj1 P) (proj2 P)) with (X := fun J J' => 1 * (J J3 + J' J3)) (Y := fun J J' => 1 * (J J9 + J' J9)) (Z := fun J J' => sqrt (beta2 d lo) / 2 * (J J6s + J' J6s)) (W := fun J J' => 2 * (J J2s + J' J2s)); try apply linear_S; [unfold lo, hi; lra |].
    intros q2 Q. destruct (inside q2 Q) as (q1 & q3). apply (pt_369 d lo q2 W T lo_thr); [lra | exact q3].
  Qed.
  Lemma bin_48 : tensor_free d -> 0 <= 1 * (I J2s + I' J2s) /\ 0 <= -1 * (I J2c + I' J2c) /\ (1 * (I J4 + I' J4)) ^ 2 + (1 * (I J8 + I' J8)) ^ 2 <= 2 * (1 * (I J2s + I' J2s) * (-1 * (I J2c + I' J2c))).
  Proof using W L P.
    intros T. apply (cs_two (Jv d) (Jv' d) lo hi (proj1 P) (proj2 P)) with (c := 2) (X := fun J J' => 1 * (J J4 + J' J4)) (Y := fun J J' => 1 * (J J8 + J' J8)) (A := fun J J' => 1 * (J J2s + J' J2s)) (B := fun J J' => -1 * (J J2c + J' J2c)); try apply linear_S; [unfold lo, hi; lra | lra |].
    intros q2 Q. destruct (inside q2 Q) as (q1 & q3). apply (pt_48 d lo q2 W T lo_thr); [lra | exact q3].
  Qed.
  Lemma bin_57 : tensor_free d -> scalar_free d -> 0 <= 1 * (I J2s + I' J2s) /\ 0 <= -1 * (I J2c + I' J2c) /\ (sqrt (beta2 d lo) * (I J5 + I' J5)) ^ 2 + (sqrt (beta2 d lo) * (I J7 + I' J7)) ^ 2 <= 8 * (1 * (I J2s + I' J2s) * (-1 * (I J2c + I' J2c))).
  Proof using W L P.
    intros T Sf. apply (cs_two (Jv d) (Jv' d) lo hi (proj1 P) (proj2 P)) with (c := 8) (X := fun J J' => sqrt (beta2 d lo) * (J J5 + J' J5)) (Y := fun J J' => sqrt (beta2 d lo) * (J J7 + J' J7)) (A := fun J J' => 1 * (J J2s + J' J2s)) (B := fun J J' => -1 * (J J2c + J' J2c)); try apply linear_S; [unfold lo, hi; lra | lra |].
    intros q2 Q. destruct (inside q2 Q) as (q1 & q3). apply (pt_57 d lo q2 W T lo_thr); [lra | exact q3 | exact Sf].
  Qed.
End Bounds.
(** the values of the binned observables *)
Section BinValues.
  Variables (d : vll) (a b : R).
  Hypotheses (W : vll_ok d) (L : Rmax a (thr d) < Rmin b (top d)).
  Notation I := (over (Jv d) (Rmax a (thr d)) (Rmin b (top d))).
  Notation I' := (over (Jv' d) (Rmax a (thr d)) (Rmin b (top d))).
  Lemma SA_total J J' : SA_den J J' = total J J'.
  Proof using. rewrite total_is. unfold SA_den, dGdq2_ave. field. Qed.
  Lemma v_FL : bvll_bin d "FL" a b = Some (-1 * (I J2c + I' J2c) / total I I').
  Proof using W L. change (bvll_bin d "FL" a b) with (Some (BVll_int_ratio d FL_num SA_den a b)). f_equal. apply (ratio_bin d W FL_num SA_den (fun J J' => -1 * (J J2c + J' J2c)) total); [intros; unfold FL_num, S_theory_num; ring | apply SA_total | apply linear_S | apply linear_total | exact L]. Qed.
  Lemma v_AFB : bvll_bin d "AFB" a b = Some (-3 / 4 * (I J6s + I' J6s) / total I I').
  Proof using W L. change (bvll_bin d "AFB" a b) with (Some (BVll_int_ratio d AFB_experiment_num SA_den a b)). f_equal. apply (ratio_bin d W AFB_experiment_num SA_den (fun J J' => -3 / 4 * (J J6s + J' J6s)) total); [intros; unfold AFB_experiment_num, S_experiment_num, S_theory_num; cbn [signflip]; field | apply SA_total | apply linear_S | apply linear_total | exact L]. Qed.
  Ltac vp name num := change (bvll_bin d name a b) with (Some (BVll_int_ratio d num P_den a b)); f_equal;
    rewrite (ratio_bin d W num P_den num (fun J J' => 1 * (J J2s + J' J2s))); [unfold S_experiment_num, S_theory_num; cbn [signflip]; rewrite Rmult_1_l; unfold Rdiv; ring | reflexivity | intros; unfold P_den, S_theory_num; ring | | apply linear_S | exact L].
  Lemma v_P1 : bvll_bin d "P1" a b = Some ((I J3 + I' J3) / 2 / (I J2s + I' J2s)).
  Proof using W L. vp "P1" (fun J J_bar => S_experiment_num J J_bar J3 / 2). apply (linear_ext (fun J J' => 1 / 2 * (J J3 + J' J3))); [intros; unfold S_experiment_num, S_theory_num; cbn [signflip]; field | apply linear_S]. Qed.
  Lemma v_P2 : bvll_bin d "P2" a b = Some (- (I J6s + I' J6s) / 8 / (I J2s + I' J2s)).
  Proof using W L. vp "P2" (fun J J_bar => S_experiment_num J J_bar J6s / 8). apply (linear_ext (fun J J' => - 1 / 8 * (J J6s + J' J6s))); [intros; unfold S_experiment_num, S_theory_num; cbn [signflip]; field | apply linear_S]. Qed.
  Lemma v_P3 : bvll_bin d "P3" a b = Some ((I J9 + I' J9) / 4 / (I J2s + I' J2s)).
  Proof using W L. vp "P3" (fun J J_bar => - S_experiment_num J J_bar J9 / 4). apply (linear_ext (fun J J' => 1 / 4 * (J J9 + J' J9))); [intros; unfold S_experiment_num, S_theory_num; cbn [signflip]; field | apply linear_S]. Qed.
  Notation den := (2 * sqrt ((I J2s + I' J2s) * - (I J2c + I' J2c))).
  Lemma v_P4 : bvll_bin d "P4p" a b = Some (-1 * (I J4 + I' J4) / den).
  Proof using W L.
    change (bvll_bin d "P4p" a b) with (Some (BVll_int_pprime d (fun J J_bar => S_experiment_num J J_bar J4) a b)). f_equal.
    apply (pprime_bin d W _ (fun J J' => -1 * (J J4 + J' J4)) (fun J J' : jkey -> R => 2 * sqrt ((J J2s + J' J2s) * - (J J2c + J' J2c)))); [intros; unfold S_experiment_num, S_theory_num; cbn [signflip]; ring | reflexivity | apply linear_S | exact L].
  Qed.
  Lemma v_P5 : bvll_bin d "P5p" a b = Some (1 * (I J5 + I' J5) / den).
  Proof using W L.
    change (bvll_bin d "P5p" a b) with (Some (BVll_int_pprime d (fun J J_bar => S_experiment_num J J_bar J5) a b)). f_equal.
    apply (pprime_bin d W _ (fun J J' => 1 * (J J5 + J' J5)) (fun J J' : jkey -> R => 2 * sqrt ((J J2s + J' J2s) * - (J J2c + J' J2c)))); [intros; unfold S_experiment_num, S_theory_num; cbn [signflip]; ring | reflexivity | apply linear_S | exact L].
  Qed.
  Lemma v_P6 : bvll_bin d "P6p" a b = Some (-1 * (I J7 + I' J7) / den).
  Proof using W L.
    change (bvll_bin d "P6p" a b) with (Some (BVll_int_pprime d (fun J J_bar => S_experiment_num J J_bar J7) a b)). f_equal.
    apply (pprime_bin d W _ (fun J J' => -1 * (J J7 + J' J7)) (fun J J' : jkey -> R => 2 * sqrt ((J J2s + J' J2s) * - (J J2c + J' J2c)))); [intros; unfold S_experiment_num, S_theory_num; cbn [signflip]; ring | reflexivity | apply linear_S | exact L].
  Qed.
  Lemma v_P8 : bvll_bin d "P8p" a b = Some (1 * (I J8 + I' J8) / den).
  Proof using W L.
    change (bvll_bin d "P8p" a b) with (Some (BVll_int_pprime d (fun J J_bar => S_experiment_num J J_bar J8) a b)). f_equal.
    apply (pprime_bin d W _ (fun J J' => 1 * (J J8 + J' J8)) (fun J J' : jkey -> R => 2 * sqrt ((J J2s + J' J2s) * - (J J2c + J' J2c)))); [intros; unfold S_experiment_num, S_theory_num; cbn [signflip]; ring | reflexivity | apply linear_S | exact L].
  Qed.
End BinValues.
Lemma cases (d : vll) (a b : R) : Rmax a (thr d) < Rmin b (top d) \/ Rmin b (top d) <= Rmax a (thr d).
Proof. destruct (Rlt_dec (Rmax a (thr d)) (Rmin b (top d))); lra. Qed.
(** for all bins, including those that do not overlap with the kinematic range *)
Theorem C132_FL (d : vll) (a b x : R) : vll_ok d -> tensor_free d -> bvll_bin d "FL" a b = Some x -> 0 <= x <= 1.
Proof.
  intros W T E. destruct (cases d a b) as [L | L]; [| rewrite (bin_out d _ a b x L E); lra]. rewrite (v_FL d a b W L) in E. injection E as <-.
  apply div01. split; [now apply bin_FL_pos | now apply bin_FL_le].
Qed.
Theorem C132_FL_upper (d : vll) (a b x : R) : vll_ok d -> bvll_bin d "FL" a b = Some x -> x <= 1.
Proof.
  intros W E. destruct (cases d a b) as [L | L]; [| rewrite (bin_out d _ a b x L E); lra]. rewrite (v_FL d a b W L) in E. injection E as <-.
  pose proof (bin_FL_le d W a b L) as U. pose proof (bin_rate d W a b L) as V. set (n := -1 * _) in *. set (t := total _ _) in *. destruct (Rle_dec 0 n) as [p | p]; [apply div01; lra |].
  destruct V as [V | V]; [apply (Rmult_le_reg_r t); [exact V |]; unfold Rdiv; rewrite Rmult_assoc, Rinv_l by lra; lra |]. rewrite <- V. unfold Rdiv. rewrite Rinv_0, Rmult_0_r. lra.
Qed.
Theorem C132_AFB (d : vll) (a b x : R) : vll_ok d -> bvll_bin d "AFB" a b = Some x -> Rabs x <= 3 / 4.
Proof.
  intros W E. destruct (cases d a b) as [L | L]; [| rewrite (bin_out d _ a b x L E), Rabs_R0; lra]. rewrite (v_AFB d a b W L) in E. injection E as <-.
  apply div_abs; [lra |]. rewrite Rabs_mult. replace (Rabs (-3 / 4)) with (3 / 4) by (rewrite Rabs_left; lra). apply Rmult_le_compat_l; [lra | now apply bin_6s].
Qed.
Theorem C132_P123 (d : vll) (a b p1 p2 p3 : R) : vll_ok d -> tensor_free d -> bvll_bin d "P1" a b = Some p1 -> bvll_bin d "P2" a b = Some p2 -> bvll_bin d "P3" a b = Some p3 ->
  p1 ^ 2 + 4 * beta2 d (Rmax a (thr d)) * p2 ^ 2 + 4 * p3 ^ 2 <= 1.
Proof.
  intros W T E1 E2 E3. destruct (cases d a b) as [L | L]; [| rewrite (bin_out d _ a b p1 L E1), (bin_out d _ a b p2 L E2), (bin_out d _ a b p3 L E3); lra].
  rewrite (v_P1 d a b W L) in E1. rewrite (v_P2 d a b W L) in E2. rewrite (v_P3 d a b W L) in E3. injection E1 as <-. injection E2 as <-. injection E3 as <-.
  destruct (bin_369 d W a b L T) as (S & Q). rewrite <- (v_sq d (Rmax a (thr d)) (Rmax a (thr d)) W (Rmax_r _ _) (Rle_refl _)). now apply val_369.
Qed.
Theorem C132_P48 (d : vll) (a b p4 p8 : R) : vll_ok d -> tensor_free d -> bvll_bin d "P4p" a b = Some p4 -> bvll_bin d "P8p" a b = Some p8 -> p4 ^ 2 + p8 ^ 2 <= 1 / 2.
Proof.
  intros W T E1 E2. destruct (cases d a b) as [L | L]; [| rewrite (bin_out d _ a b p4 L E1), (bin_out d _ a b p8 L E2); lra].
  rewrite (v_P4 d a b W L) in E1. rewrite (v_P8 d a b W L) in E2. injection E1 as <-. injection E2 as <-. destruct (bin_48 d W a b L T) as (A & B & Q).
  match goal with |- (-1 * ?x / (2 * sqrt (?A * ?B))) ^ 2 + (1 * ?y / _) ^ 2 <= _ => assert (A0 : 0 <= A) by lra; assert (B0 : 0 <= B) by lra; assert (c0 : 0 <= 2) by lra; assert (K := val_two 2 (-1 * x) (1 * y) A B c0 A0 B0) end.
  eapply Rle_trans; [apply K | lra]. eapply Rle_trans; [| eapply Rle_trans; [exact Q |]]; right; ring.
Qed.
Theorem C132_P56 (d : vll) (a b p5 p6 : R) : vll_ok d -> tensor_free d -> scalar_free d -> bvll_bin d "P5p" a b = Some p5 -> bvll_bin d "P6p" a b = Some p6 -> beta2 d (Rmax a (thr d)) * (p5 ^ 2 + p6 ^ 2) <= 2.
Proof.
  intros W T Sf E1 E2. destruct (cases d a b) as [L | L]; [| rewrite (bin_out d _ a b p5 L E1), (bin_out d _ a b p6 L E2); lra].
  rewrite (v_P5 d a b W L) in E1. rewrite (v_P6 d a b W L) in E2. injection E1 as <-. injection E2 as <-. destruct (bin_57 d W a b L T Sf) as (A & B & Q).
  rewrite <- (v_sq d (Rmax a (thr d)) (Rmax a (thr d)) W (Rmax_r _ _) (Rle_refl _)). set (v := sqrt (beta2 d _)) in *.
  match goal with |- v ^ 2 * ((1 * ?x / (2 * sqrt (?A * ?B))) ^ 2 + (-1 * ?y / _) ^ 2) <= _ => assert (A0 : 0 <= A) by lra; assert (B0 : 0 <= B) by lra; assert (c0 : 0 <= 8) by lra; assert (K := val_two 8 (v * x) (v * y) A B c0 A0 B0) end.
  eapply Rle_trans; [| eapply Rle_trans; [apply K |]]; [right; unfold Rdiv; ring | | lra]. eapply Rle_trans; [exact Q |]. right; ring.
Qed.
(** ratios of lepton flavours: those of the branching ratios; never negative; one if the leptons cannot be distinguished *)
Lemma obs_dBR (d : vll) (a b : R) : vll_ok d -> a <= b -> BVll_dBRdq2_int d a b = l_tau d * BVll_obs_int d dGdq2_ave a b.
Proof.
  intros W L. unfold BVll_dBRdq2_int, BVll_obs_int. destruct (range_cases d a b L) as [(e & h) | (e & h)]; rewrite e; [ring |].
  change (fun q2 => l_tau d * jfunc d dGdq2_ave q2) with (jfunc d (fun J J' : jkey -> R => l_tau d * dGdq2_ave J J')).
  rewrite (bin_over d W a b (fun J J' : jkey -> R => l_tau d * dGdq2_ave J J') (ave_f d) e h), (bin_over d W a b dGdq2_ave linear_ave e h). unfold Rdiv. ring.
Qed.
Theorem C132_R (d1 d2 : vll) (a b q2 : R) : vll_ok d1 -> vll_ok d2 -> l_tau d1 = l_tau d2 -> 0 < l_tau d1 -> a <= b ->
  (BVll_dBRdq2_int d2 a b <> 0 -> bvll_R_bin d1 d2 a b = BVll_dBRdq2_int d1 a b / BVll_dBRdq2_int d2 a b) /\
  (BVll_dBRdq2 d2 q2 <> 0 -> bvll_R d1 d2 q2 = BVll_dBRdq2 d1 q2 / BVll_dBRdq2 d2 q2).
Proof.
  intros W1 W2 Et T L. split.
  - intros N. unfold bvll_R_bin, bvll_obs_int_ratio_leptonflavour. rewrite ratio0_div. rewrite !obs_dBR in * by assumption. rewrite <- Et in *. field. split; intros z; rewrite ?z in *; lra.
  - intros N. unfold bvll_R, bvll_obs_ratio_leptonflavour. rewrite ratio0_div.
    assert (E : forall d, BVll_dBRdq2 d q2 = l_tau d * BVll_obs d dGdq2_ave q2) by (intros d; unfold BVll_dBRdq2, BVll_obs; destruct (negb _); [ring | reflexivity]).
    rewrite !E in *. rewrite <- Et in *. field. split; intros z; rewrite ?z in *; lra.
Qed.
Theorem C132_R_same (d1 d2 : vll) (a b : R) : vll_ok d1 -> a <= b -> l_mB d1 = l_mB d2 -> l_mV d1 = l_mV d2 -> l_ml d1 = l_ml d2 -> (forall q2, l_h d1 q2 = l_h d2 q2 /\ l_hbar d1 q2 = l_hbar d2 q2) ->
  0 < RInt (BVll_dBRdq2 d1) a b -> bvll_R_bin d1 d2 a b = 1.
Proof.
  intros W L e1 e2 e3 e4 P. unfold bvll_R_bin, bvll_obs_int_ratio_leptonflavour.
  assert (E : BVll_obs_int d2 dGdq2_ave a b = BVll_obs_int d1 dGdq2_ave a b).
  { assert (J : forall q2, jfunc d2 dGdq2_ave q2 = jfunc d1 dGdq2_ave q2) by (intros q2; unfold jfunc, j, jbar; destruct (e4 q2) as (h1 & h2); rewrite e1, e2, e3, h1, h2; reflexivity).
    unfold BVll_obs_int, empty_bin, binned, nintegrate_pole, nintegrate, q2min_allowed, q2max_allowed. rewrite !J, e1, e2, e3. f_equal. destruct (Rle_dec _ _); [reflexivity |]. f_equal.
    destruct (Rle_dec (Rmax _ _) _); [destruct (Rlt_dec 0 _) |]; [f_equal | |]; apply ext_R; intros; rewrite J; reflexivity. }
  rewrite E, ratio0_div. destruct (C131_bins d1 a b b W L (Rle_refl b)) as (_ & B & _). rewrite <- B, (obs_dBR d1 a b W L) in P. field. intros z. rewrite z in P. lra.
Qed.
Theorem C132_R_positive (d1 d2 : vll) (a b : R) : vll_ok d1 -> vll_ok d2 -> a < b -> 0 <= bvll_R_bin d1 d2 a b.
Proof.
  intros W1 W2 L. unfold bvll_R_bin, bvll_obs_int_ratio_leptonflavour.
  assert (Q : forall d, vll_ok d -> 0 <= BVll_obs_int d dGdq2_ave a b).
  { intros d W. assert (L' : a <= b) by lra. pose proof (obs_int_is d W dGdq2_ave a b linear_ave L') as E.
    assert (I : 0 <= RInt (BVll_obs d dGdq2_ave) a b).
    { apply RI_pos; [exact L' | apply (obs_int_any d W), linear_ave |]. intros q2 _. unfold BVll_obs. destruct (allowed d q2) eqn:A; cbn [negb]; [| lra].
      assert (K : thr d <= q2 <= top d) by (unfold allowed in A; fold (thr d) (top d) in A; destruct (Rlt_dec q2 _); [discriminate |]; destruct (Rlt_dec _ q2); [discriminate | lra]).
      destruct (pt_rate d W q2 K) as (p & _). rewrite total_is in p. unfold jfunc, dGdq2_ave. fold (Jv d q2) (Jv' d q2) in *. change (j d q2) with (Jv d q2). change (jbar d q2) with (Jv' d q2). lra. }
    apply (Rmult_le_reg_l (b - a)); [lra |]. rewrite Rmult_0_r, E. exact I. }
  apply ratio0_pos; now apply Q.
Qed.

(** ** C133 (refuted): the registered CP asymmetry is (rate - conjugate rate) / (rate + conjugate rate).  It is half of that *)
Theorem C133_half_refuted (d : vll) (q2 a b : R) : vll_ok d ->
  (let G := rate_all (vll_density d (l_h d) q2) in let G' := rate_all (vll_density d (l_hbar d) q2) in
   thr d <= q2 <= top d -> G + G' <> 0 -> bvll_diff d "ACP" q2 = Some ((G - G') / (G + G') / 2)) /\
  (let G := RInt (fun q2 => rate_all (vll_density d (l_h d) q2)) (Rmax a (thr d)) (Rmin b (top d)) in
   let G' := RInt (fun q2 => rate_all (vll_density d (l_hbar d) q2)) (Rmax a (thr d)) (Rmin b (top d)) in
   Rmax a (thr d) < Rmin b (top d) -> G + G' <> 0 -> bvll_bin d "ACP" a b = Some ((G - G') / (G + G') / 2)).
Proof.
  intros W. split.
  - intros G G' L N. unfold G, G' in *. rewrite !(rate_h d W) in * by lra. change (bvll_diff d "ACP" q2) with (Some (BVll_ratio d dGdq2_diff SA_den q2)). f_equal.
    rewrite (ratio_at d dGdq2_diff SA_den dGdq2_diff total (fun _ _ => eq_refl) SA_total q2 L). rewrite total_is. unfold dGdq2_diff, Jv, Jv' in *. field. exact N.
  - intros G G' L N. change (bvll_bin d "ACP" a b) with (Some (BVll_int_ratio d dGdq2_diff SA_den a b)). f_equal.
    assert (F : linear dGdq2_diff) by (apply (linear_ext (fun J J' => 1 / 2 * dGdq2 J + (- 1 / 2) * dGdq2 J')); [intros; unfold dGdq2_diff; field | apply linear_rate]).
    rewrite (ratio_bin d W dGdq2_diff SA_den dGdq2_diff total (fun _ _ => eq_refl) SA_total a b F linear_total L).
    destruct (J_part d W (Rmax a (thr d)) (Rmin b (top d)) (Rmax_r _ _) ltac:(lra) (Rmin_r _ _)) as (P & P').
    assert (m1 := Rmax_r a (thr d)).
    assert (E : G = dGdq2 (over (Jv d) (Rmax a (thr d)) (Rmin b (top d)))).
    { rewrite <- lin_rate, <- (lin_RInt _ _ _ P). apply RI_ext; [lra |]. intros x X. rewrite lin_rate, (rate_h d W) by lra. reflexivity. }
    assert (E' : G' = dGdq2 (over (Jv' d) (Rmax a (thr d)) (Rmin b (top d)))).
    { rewrite <- lin_rate, <- (lin_RInt _ _ _ P'). apply RI_ext; [lra |]. intros x X. rewrite lin_rate, (rate_h d W) by lra. reflexivity. }
    rewrite total_is. unfold dGdq2_diff. rewrite <- E, <- E'. field. exact N.
Qed.
(** an example: only one of the decays occurs, so that the asymmetry is one *)
Definition const_amps (x : C) : amps := {| aV := fun _ => x; aA := fun _ => x; aP := RtoC 0; aS := RtoC 0; aT := fun _ => RtoC 0; aTt := fun _ => RtoC 0 |}.
Definition ex_vll (y : C) : vll := Vll 10 1 1 (1 / 2) (fun _ => const_amps (RtoC 1)) (fun _ => const_amps y).
Lemma ex_thr y : thr (ex_vll y) = 1 /\ top (ex_vll y) = 81.
Proof. unfold thr, top, ex_vll. cbn [l_ml l_mB l_mV]. split; lra. Qed.
Lemma const_cont x : forall q2, amps_cont (fun _ => const_amps x) q2.
Proof. intros q2. repeat split; intros; apply rc_const. Qed.
Lemma ex_ok y : vll_ok (ex_vll y).
Proof. apply C131_integrable; cbn [ex_vll l_ml l_mB l_mV l_tau l_h l_hbar]; try lra. intros x _. split; apply const_cont. Qed.
Lemma ex_signs x q2 : 1 < q2 -> q2 < 81 -> let J := angularcoeffs_general_v (const_amps x) q2 10 1 (1 / 2) (1 / 2) in x <> RtoC 0 -> 0 < J J2s /\ J J2c < 0.
Proof.
  intros Q1 Q2 J X. assert (Ph : physical q2 (1 / 2) (1 / 2)) by (unfold physical; lra). assert (NT : no_tensors (const_amps x)) by (intros l; split; reflexivity).
  destruct (kin _ _ _ Ph) as (s & i & k & E1 & E2 & K). assert (p : 0 <= 1 / 2) by lra.
  unfold J. rewrite (nt_2s _ _ _ _ _ _ _ _ _ _ _ p p K NT), (nt_2c _ _ _ _ _ _ _ _ _ _ _ p p K NT).
  assert (Hk : 0 < k).
  { destruct K as [Ks Kp _ Kk _ _ _ _ _ Kl _ _]. assert (T : 0 < triangle q2 ((1 / 2) ^ 2) ((1 / 2) ^ 2)) by (unfold triangle; assert (0 < q2 * (q2 - 1)) by (apply Rmult_lt_0_compat; lra); lra).
    rewrite lambda_triangle in Kl by lra. destruct Kk as [Kk | Kk]; [exact Kk | exfalso; rewrite <- Kk in Kl; replace (4 * 0 ^ 2 * s ^ 2) with 0 in Kl by ring; lra]. }
  assert (N : 0 < normalisation q2 10 1 (1 / 2) (1 / 2)).
  { unfold normalisation, triangle. assert (0 < q2 * (q2 - 1)) by (apply Rmult_lt_0_compat; lra). assert (0 < (81 - q2) * (121 - q2)) by (apply Rmult_lt_0_compat; lra).
    apply Rdiv_lt_0_compat; [apply Rmult_lt_0_compat; apply sqrt_lt_R0; lra |].
    apply Rmult_lt_0_compat; [| lra]. apply Rmult_lt_0_compat; [| lra]. apply Rmult_lt_0_compat; [lra | apply pow_lt, PI_RGT_0]. }
  assert (M : 0 < fst (x .* x)) by (rewrite <- mod_bil; apply pow_lt; now apply Cmod_gt_0).
  unfold trans_sq, long_sq. cbn [aV aA const_amps]. pose proof (pow_lt k 2 Hk) as k2. set (n := normalisation _ _ _ _ _) in *. split.
  - apply Rmult_lt_0_compat; [apply Rmult_lt_0_compat; [lra | lra] | lra].
  - assert (0 < 16 / 3 * n * (2 * k ^ 2) * (fst (x .* x) + fst (x .* x))) by (apply Rmult_lt_0_compat; [apply Rmult_lt_0_compat; lra | lra]). lra.
Qed.
Lemma ex_zero q2 k : 1 <= q2 -> angularcoeffs_general_v (const_amps (RtoC 0)) q2 10 1 (1 / 2) (1 / 2) k = 0.
Proof.
  intros Q. rewrite coefficients by (unfold physical; lra). rewrite (coeff_ext _ _ _ _ _ _ (fun _ => RtoC 0) (fun _ => RtoC 0) (fun _ => RtoC 0) (fun _ => RtoC 0) (RtoC 0) (RtoC 0));
    [rewrite coeff_zero; ring | | | | | |]; intros; unfold flip, same_v, same_a, scalar, pseudo, const_amps; cbn [aV aA aT aTt aS aP]; ring.
Qed.
Lemma ex_rate x q2 : 1 < q2 -> q2 < 81 -> x <> RtoC 0 -> 0 < dGdq2 (angularcoeffs_general_v (const_amps x) q2 10 1 (1 / 2) (1 / 2)).
Proof. intros Q1 Q2 X. destruct (ex_signs x q2 Q1 Q2 X) as (_ & s). assert (Ph : physical q2 (1 / 2) (1 / 2)) by (unfold physical; lra). assert (HB : 0 < 10) by lra. pose proof (FL_upper (const_amps x) q2 10 1 (1 / 2) (1 / 2) Ph HB) as U. lra. Qed.
Theorem C133_instance_refuted : exists (d : vll) (q2 : R), vll_ok d /\ thr d <= q2 <= top d /\
  let G := rate_all (vll_density d (l_h d) q2) in let G' := rate_all (vll_density d (l_hbar d) q2) in
  0 < G + G' /\ (G - G') / (G + G') = 1 /\ bvll_diff d "ACP" q2 = Some (1 / 2).
Proof.
  exists (ex_vll (RtoC 0)), 4. destruct (ex_thr (RtoC 0)) as (t1 & t2). pose proof (ex_ok (RtoC 0)) as W. assert (I : thr (ex_vll (RtoC 0)) <= 4 <= top (ex_vll (RtoC 0))) by lra.
  refine (conj W (conj I _)). intros G G'. destruct (C133_half_refuted (ex_vll (RtoC 0)) 4 0 0 W) as (H & _). cbv zeta in H. fold G G' in H.
  assert (g : 0 < G) by (unfold G; rewrite (rate_h _ W) by lra; apply ex_rate; [lra | lra |]; intros z; apply RtoC_inj in z; lra).
  assert (g' : G' = 0). { unfold G'. rewrite (rate_h _ W) by lra. cbn [ex_vll l_hbar l_mB l_mV l_ml]. unfold dGdq2. rewrite !ex_zero by lra. lra. }
  refine (conj _ (conj _ _)); [lra | rewrite g'; field; lra |]. rewrite (H I) by lra. f_equal. rewrite g'. field. lra.
Qed.
(** the hypotheses of C131 and C132 are met by a decay with a bin in which all denominators are positive *)
Example C131_met : let d := ex_vll (RtoC 2) in vll_ok d /\ tensor_free d /\ scalar_free d /\ Rmax 2 (thr d) = 2 /\ Rmin 3 (top d) = 3 /\ beta2 d 2 = 1 / 2 /\
  let I := over (Jv d) 2 3 in let I' := over (Jv' d) 2 3 in
  0 < I J2s + I' J2s /\ I J2c + I' J2c < 0 /\ 0 < total I I' /\ 0 < RInt (BVll_dBRdq2 d) 2 3 /\ bvll_R_bin d d 2 3 = 1.
Proof.
  intros d. destruct (ex_thr (RtoC 2)) as (t1 & t2). fold d in t1, t2. pose proof (ex_ok (RtoC 2)) as W. fold d in W.
  assert (T : tensor_free d) by (intros q2 _; split; intros l; split; reflexivity). assert (Sf : scalar_free d) by (intros q2 _; repeat split; reflexivity).
  assert (A : Rmax 2 (thr d) = 2) by (rewrite t1; apply Rmax_left; lra). assert (B : Rmin 3 (top d) = 3) by (rewrite t2; apply Rmin_left; lra).
  assert (b2 : beta2 d 2 = 1 / 2) by (unfold beta2, d, ex_vll; cbn [l_ml]; field).
  assert (n1 : RtoC 1 <> RtoC 0) by (intros z; apply RtoC_inj in z; lra). assert (n2 : RtoC 2 <> RtoC 0) by (intros z; apply RtoC_inj in z; lra).
  assert (G : forall x c, x <> RtoC 0 -> (forall q2, 2 < q2 < 3 -> 0 < lin c (angularcoeffs_general_v (const_amps x) q2 10 1 (1 / 2) (1 / 2))) -> 0 < lin c (over (fun q2 => angularcoeffs_general_v (const_amps x) q2 10 1 (1 / 2) (1 / 2)) 2 3)).
  { intros x c X P. apply (lin_gt0 (fun _ => const_amps x)); try lra; [intros; apply const_cont | exact P]. }
  assert (s : forall x, x <> RtoC 0 -> 0 < over (fun q2 => angularcoeffs_general_v (const_amps x) q2 10 1 (1 / 2) (1 / 2)) 2 3 J2s /\ over (fun q2 => angularcoeffs_general_v (const_amps x) q2 10 1 (1 / 2) (1 / 2)) 2 3 J2c < 0).
  { intros x X. split.
    - pose proof (G x (only J2s 1) X) as g. rewrite lin_only, Rmult_1_l in g. apply g. intros q2 Q. rewrite lin_only, Rmult_1_l. apply ex_signs; [lra | lra | exact X].
    - pose proof (G x (only J2c (-1)) X) as g. rewrite lin_only in g. cut (0 < -1 * over (fun q2 => angularcoeffs_general_v (const_amps x) q2 10 1 (1 / 2) (1 / 2)) 2 3 J2c); [lra |]. apply g. intros q2 Q. rewrite lin_only. destruct (ex_signs x q2 ltac:(lra) ltac:(lra) X) as (_ & u). lra. }
  destruct (s _ n1) as (s1 & s2). destruct (s _ n2) as (s3 & s4). change (over (fun q2 => angularcoeffs_general_v (const_amps (RtoC 1)) q2 10 1 (1 / 2) (1 / 2)) 2 3) with (over (Jv d) 2 3) in *. change (over (fun q2 => angularcoeffs_general_v (const_amps (RtoC 2)) q2 10 1 (1 / 2) (1 / 2)) 2 3) with (over (Jv' d) 2 3) in *.
  assert (L : Rmax 2 (thr d) < Rmin 3 (top d)) by (rewrite A, B; lra).
  pose proof (bin_FL_le d W 2 3 L) as F. rewrite A, B in F. assert (Tp : 0 < total (over (Jv d) 2 3) (over (Jv' d) 2 3)) by lra.
  assert (R0 : 0 < RInt (BVll_dBRdq2 d) 2 3).
  { rewrite (ext_R _ (BVll_obs d (fun J J' : jkey -> R => l_tau d * dGdq2_ave J J'))) by reflexivity. assert (le : 2 <= 3) by lra. pose proof (obs_RInt d W _ 2 3 (ave_f d) le) as E.
    eapply Rlt_le_trans; [| right; symmetry; exact E]. pose proof (empty_false d 2 3 L) as e. rewrite e. rewrite (bin_over d W 2 3 _ (ave_f d) e L), A, B. rewrite total_is in Tp. unfold dGdq2_ave. cbn [d ex_vll l_tau]. fold d. lra. }
  refine (conj W (conj T (conj Sf (conj A (conj B (conj b2 _)))))). intros I I'. refine (conj _ (conj _ (conj Tp (conj R0 _)))); [unfold I, I'; lra | unfold I, I'; lra |].
  apply C132_R_same; try reflexivity; [exact W | lra | intros; split; reflexivity | exact R0].
Qed.
Print Assumptions C130_complex.
Print Assumptions C131_total.
Print Assumptions C131_binned.
Print Assumptions C132_P56.
Print Assumptions C132_R_same.
Print Assumptions C133_half_refuted.
