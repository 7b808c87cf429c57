(** * Theorems about B -> P l l: C134 *)
From Coq Require Import Reals Lra.
From Coquelicot Require Import Coquelicot.
From Verif Require Import Base Basics_Model Basics_Proofs Angular_Model Angular_Spec Angular_Proofs Angular_Proofs2 Angular_Proofs3 Angular_Proofs4 Angular_Proofs5 Angular_Proofs6 Angular_Proofs7 Angular_Proofs8 Angular_Proofs9 Decays_Model Decays_Spec Decays_Proofs Decays_Proofs2 Decays_Proofs3 Decays_Proofs4 Decays_Proofs5 DecaysNC_Model DecaysNC_Spec DecaysNC_Proofs DecaysNC_Proofs3 DecaysNC_Proofs4 DecaysNC_Proofs5.
Local Open Scope string_scope.
Local Open Scope R_scope.

Lemma pl (x y z x' y' z' : R) f : (forall J J', f J J' = plin x y z J + plin x' y' z' J') -> plinear f.
Proof. intros E. exists x, y, z, x', y', z'. exact E. Qed.
Lemma pl_ave : plinear P_dGdq2_cpaverage.
Proof. apply (pl 1 0 (1 / 3) 1 0 (1 / 3)). intros. unfold P_dGdq2_cpaverage, P_dGdq2, plin. field. Qed.
Lemma pl_diff : plinear P_dGdq2_cpdiff.
Proof. apply (pl 1 0 (1 / 3) (-1) 0 (- 1 / 3)). intros. unfold P_dGdq2_cpdiff, P_dGdq2, plin. field. Qed.
Lemma pl_AFB : plinear P_AFB_cpaverage_num.
Proof. apply (pl 0 (1 / 2) 0 0 (1 / 2) 0). intros. unfold P_AFB_cpaverage_num, P_AFB_num, plin. field. Qed.
Lemma pl_FH : plinear P_FH_cpaverage_num.
Proof. apply (pl 1 0 1 1 0 1). intros. unfold P_FH_cpaverage_num, P_FH_num, plin. field. Qed.
Lemma pl_comb f g x y : plinear f -> plinear g -> plinear (fun J J' => x * f J J' + y * g J J').
Proof.
  intros (a & b & c & a' & b' & c' & E) (e & h & i & e' & h' & i' & F). exists (x * a + y * e), (x * b + y * h), (x * c + y * i), (x * a' + y * e'), (x * b' + y * h'), (x * c' + y * i').
  intros. rewrite E, F. unfold plin. ring.
Qed.
Lemma pl_slice u v s s' : plinear (fun J J' => s * slice u v J + s' * slice u v J').
Proof. eapply pl. intros J J'. unfold slice, plin. match goal with |- ?s * (?x * _ + ?y * _ + ?z * _) + ?t * _ = _ => instantiate (6 := s * x); instantiate (5 := s * y); instantiate (4 := s * z); instantiate (3 := t * x); instantiate (2 := t * y); instantiate (1 := t * z) end. ring. Qed.
Section V.
  Variable d : pll.
  Hypothesis W : pll_ok d.
  Definition V (f : pcoeffs -> pcoeffs -> R) (a b : R) : R := RInt (within d (fun q => f (Jp d q) (Jp' d q))) a b.
  Lemma V_comb f g x y a b : plinear f -> plinear g -> V (fun J J' => x * f J J' + y * g J J') a b = x * V f a b + y * V g a b.
  Proof using W.
    intros F G. unfold V. assert (i := within_int d W f a b F). assert (k := within_int d W g a b G).
    rewrite <- (RI_scal _ a b x i), <- (RI_scal _ a b y k), <- RI_plus by (apply int_scal; assumption). apply ext_R. intros q. unfold within. destruct (Rle_dec q (pthr d)); [ring |]. destruct (Rlt_dec (ptop d) q); [ring | reflexivity].
  Qed.
  Lemma V_ext f g a b : (forall J J', f J J' = g J J') -> V f a b = V g a b.
  Proof using. intros E. unfold V. apply ext_R. intros q. apply within_ext. intros _. apply E. Qed.
  Lemma V_pos f a b : plinear f -> a <= b -> (forall q, pthr d <= q <= ptop d -> 0 <= f (Jp d q) (Jp' d q)) -> 0 <= V f a b.
  Proof using W.
    intros F L P. unfold V. apply RI_pos; [exact L | now apply within_int |]. intros q _. unfold within. destruct (Rle_dec q (pthr d)); [lra |]. destruct (Rlt_dec (ptop d) q); [lra |]. apply P. lra.
  Qed.
  Lemma obs_V f a b : bpll_obs_int d f a b = V f a b.
  Proof using. unfold bpll_obs_int, nintegrate, V. apply ext_R. intros q. apply obs_within. Qed.
  Lemma rate_V u v a b : RInt (pll_rate d u v) a b = V (fun J J' => 1 * slice u v J + 1 * slice u v J') a b.
  Proof using W. unfold V. apply ext_R. intros q. rewrite rate_both by exact W. apply within_ext. intros _. ring. Qed.
  Lemma one_V u v a b : RInt (pll_one d (k_h d) u v) a b = V (fun J J' => 1 * slice u v J + 0 * slice u v J') a b /\ RInt (pll_one d (k_hbar d) u v) a b = V (fun J J' => 0 * slice u v J + 1 * slice u v J') a b.
  Proof using W. unfold V. split; apply ext_R; intros q; rewrite ?one_h, ?one_hbar by exact W; apply within_ext; intros _; ring. Qed.
  Lemma rate_pos_all q2 : 0 <= pll_rate d 0 PI q2.
  Proof using W.
    rewrite rate_both by exact W. unfold within. destruct (Rle_dec q2 (pthr d)) as [l | l]; [lra |]. destruct (Rlt_dec (ptop d) q2); [lra |]. rewrite !slice_all. assert (L : pthr d <= q2) by lra.
    destruct (p_pos d W (k_h d) q2 L) as (_ & _ & p). destruct (p_pos d W (k_hbar d) q2 L) as (_ & _ & p'). unfold Jp, Jp'. lra.
  Qed.
  Lemma rate_ex u v a b : ex_RInt (pll_rate d u v) a b.
  Proof using W. apply (ex_RInt_ext (within d (fun q => (fun J J' => 1 * slice u v J + 1 * slice u v J') (Jp d q) (Jp' d q)))); [intros q _; rewrite rate_both by exact W; apply within_ext; intros _; ring | apply (within_int d W (fun J J' => 1 * slice u v J + 1 * slice u v J')), pl_slice]. Qed.
End V.
Lemma share_p (d : pll) q2 : bpll_dbrdq2 d q2 = k_tau d * share neutral_p (k_name d) * bpll_obs d P_dGdq2_cpaverage q2.
Proof.
  unfold bpll_dbrdq2, share, neutral_p. cbv zeta. destruct (in_dec string_dec (k_name d) ["pi0"%string]) as [i | i].
  - destruct i as [<- | []]. rewrite String.eqb_refl. field.
  - destruct (k_name d =? "pi0")%string eqn:E; [apply String.eqb_eq in E; exfalso; apply i; left; symmetry; exact E | ring].
Qed.
(** the spectrum: lifetime times the average of the squared amplitudes of the two decays, integrated over the angle *)
Theorem C134_spectrum (d : pll) (q2 : R) : pll_ok d ->
  bpll_dbrdq2 d q2 = k_tau d * share neutral_p (k_name d) * (pll_rate d 0 PI q2 / 2) /\ 0 <= bpll_dbrdq2 d q2 /\ (~ (pthr d < q2 <= ptop d) -> bpll_dbrdq2 d q2 = 0).
Proof.
  intros W. assert (E : bpll_dbrdq2 d q2 = k_tau d * share neutral_p (k_name d) * (pll_rate d 0 PI q2 / 2)).
  { rewrite share_p, obs_within, rate_both by exact W. f_equal. unfold within. destruct (Rle_dec q2 (pthr d)); [field |]. destruct (Rlt_dec (ptop d) q2); [field |]. rewrite !slice_all. reflexivity. }
  refine (conj E (conj _ _)).
  - rewrite E. apply Rmult_le_pos; [apply Rmult_le_pos; [apply W | left; apply share_pos] |]. pose proof (rate_pos_all d W q2). lra.
  - intros O. rewrite E, rate_both by exact W. unfold within. destruct (Rle_dec q2 (pthr d)); [unfold Rdiv; ring |]. destruct (Rlt_dec (ptop d) q2); [unfold Rdiv; ring | lra].
Qed.
Theorem C134_bins (d : pll) (a b c : R) : pll_ok d -> a < b -> b < c ->
  (b - a) * bpll_dbrdq2_int d a b = RInt (bpll_dbrdq2 d) a b /\ ex_RInt (bpll_dbrdq2 d) a b /\
  (b - a) * bpll_dbrdq2_int d a b + (c - b) * bpll_dbrdq2_int d b c = (c - a) * bpll_dbrdq2_int d a c.
Proof.
  intros W L1 L2. assert (E : forall x y, x < y -> (y - x) * bpll_dbrdq2_int d x y = RInt (bpll_dbrdq2 d) x y) by (intros x y L; unfold bpll_dbrdq2_int, nintegrate; field; lra).
  assert (I : forall x y, ex_RInt (bpll_dbrdq2 d) x y).
  { intros x y. apply (ex_RInt_ext (fun q => k_tau d * share neutral_p (k_name d) / 2 * pll_rate d 0 PI q)); [intros q _; rewrite (proj1 (C134_spectrum d q W)); toR; unfold Rdiv; ring | apply (int_scal (pll_rate d 0 PI)), (rate_ex d W)]. }
  split; [apply E; exact L1 |]. split; [apply I |]. rewrite !E by lra. symmetry. apply RI_chasles; apply I.
Qed.
(** the total: all of phase space; bins that cover the kinematic range give the same *)
Theorem C134_total (d : pll) (a b : R) : pll_ok d -> pthr d < ptop d ->
  bpll_dbrdq2_tot d = k_tau d * share neutral_p (k_name d) * (RInt (fun q2 => RInt (fun th => pll_density d (k_h d) q2 th) 0 PI + RInt (fun th => pll_density d (k_hbar d) q2 th) 0 PI) (pthr d) (ptop d) / 2) /\
  (a <= pthr d -> ptop d <= b -> (b - a) * bpll_dbrdq2_int d a b = bpll_dbrdq2_tot d).
Proof.
  intros W L. set (X := RInt (fun q2 => _) (pthr d) (ptop d)). set (t := k_tau d * share neutral_p (k_name d)).
  assert (S2 : (k_ml d + k_ml d) ^ 2 = pthr d) by (unfold pthr; ring).
  assert (Q : forall x y, x <= pthr d -> ptop d <= y -> RInt (bpll_dbrdq2 d) x y = t * (X / 2)).
  { intros x y Lx Ly. rewrite (ext_R _ (fun q => t / 2 * pll_rate d 0 PI q)) by (intros q; rewrite (proj1 (C134_spectrum d q W)); unfold t, Rdiv; ring).
    rewrite (RI_scal (pll_rate d 0 PI)) by apply (rate_ex d W). unfold Rdiv. rewrite Rmult_assoc. f_equal. rewrite (Rmult_comm (/ 2)). f_equal.
    rewrite (ext_R _ (clip (pthr d) (ptop d) (fun q => 1 * slice 0 PI (Jp d q) + 1 * slice 0 PI (Jp' d q)))).
    - rewrite clip_cover; [| exact Lx | lra | exact Ly | apply (plinear_int (fun J J' => 1 * slice 0 PI J + 1 * slice 0 PI J')); [apply pl_slice | apply (p_full d W) | apply (p_full d W)]].
      apply RI_ext; [lra |]. intros q Hq. rewrite !(dens_int d W) by lra. unfold Jp, Jp'. ring.
    - intros q. rewrite (rate_both d W). rewrite <- (within_clip d W (fun J J' => 1 * slice 0 PI J + 1 * slice 0 PI J')) by apply pl_slice. apply within_ext. intros _. ring. }
  assert (T : bpll_dbrdq2_tot d = t * (X / 2)).
  { unfold bpll_dbrdq2_tot, bpll_dbrdq2_int, nintegrate. cbv zeta. fold (ptop d). rewrite S2. rewrite <- (Q (pthr d) (ptop d)) by lra. field. lra. }
  split; [exact T |]. intros La Lb. rewrite T, <- (Q a b La Lb). unfold bpll_dbrdq2_int, nintegrate. field. lra.
Qed.
(** binned AFB and FH are those of the distribution of the decays in the bin *)
Theorem C134_angular (d : pll) (a b fh afb : R) : pll_ok d -> a < b -> bpll_bin d "FH" a b = Some fh -> bpll_bin d "AFB" a b = Some afb ->
  let N := RInt (pll_rate d 0 PI) a b in N <> 0 ->
  (forall th, RInt (pll_angular d th) a b = N * (3 / 4 * (1 - fh) * sin th ^ 2 + fh / 2 + afb * cos th) * sin th) /\
  afb = (RInt (pll_rate d 0 (PI / 2)) a b - RInt (pll_rate d (PI / 2) PI) a b) / (RInt (pll_rate d 0 (PI / 2)) a b + RInt (pll_rate d (PI / 2) PI) a b).
Proof.
  intros W L E1 E2 N N0. change (bpll_bin d "FH" a b) with (Some (bpll_obs_int_ratio d P_FH_cpaverage_num P_dGdq2_cpaverage a b)) in E1. change (bpll_bin d "AFB" a b) with (Some (bpll_obs_int_ratio d P_AFB_cpaverage_num P_dGdq2_cpaverage a b)) in E2.
  injection E1 as E1. injection E2 as E2. unfold bpll_obs_int_ratio in E1, E2. rewrite ratio0_div, !obs_V in E1, E2.
  assert (G : N = 2 * V d P_dGdq2_cpaverage a b).
  { unfold N. rewrite (rate_V d W), (V_ext d _ (fun J J' => 2 * P_dGdq2_cpaverage J J' + 0 * P_dGdq2_cpaverage J J')) by (intros; rewrite !slice_all; unfold P_dGdq2_cpaverage; field). rewrite (V_comb d W) by apply pl_ave. toR. ring. }
  set (g := V d P_dGdq2_cpaverage a b) in *. assert (g0 : g <> 0) by (intros z; apply N0; rewrite G, z; toR; ring). split.
  - intros th.
    assert (A : RInt (pll_angular d th) a b = V d (fun J J' => sin th * ((fun J J' => 3 / 2 * sin th ^ 2 * P_dGdq2_cpaverage J J' + (1 - 3 / 2 * sin th ^ 2) * P_FH_cpaverage_num J J') J J') + (2 * cos th * sin th) * P_AFB_cpaverage_num J J') a b).
    { unfold V. apply ext_R. intros q. rewrite (ang_both d W). apply within_ext. intros _. unfold distribution_p, P_dGdq2_cpaverage, P_dGdq2, P_FH_cpaverage_num, P_FH_num, P_AFB_cpaverage_num, P_AFB_num. replace (cos th ^ 2) with (1 - sin th ^ 2) by (pose proof (sin_sq th); simpl; lra). toR; field. }
    rewrite A, (V_comb d W (fun J J' => 3 / 2 * sin th ^ 2 * P_dGdq2_cpaverage J J' + (1 - 3 / 2 * sin th ^ 2) * P_FH_cpaverage_num J J') P_AFB_cpaverage_num) by (first [apply pl_AFB | apply pl_comb; [apply pl_ave | apply pl_FH]]).
    rewrite (V_comb d W P_dGdq2_cpaverage P_FH_cpaverage_num) by (try apply pl_ave; apply pl_FH). fold g. rewrite <- E1, <- E2, G. fold g. toR; field. exact g0.
  - rewrite !(rate_V d W).
    assert (F : V d (fun J J' => 1 * slice 0 (PI / 2) J + 1 * slice 0 (PI / 2) J') a b = 1 * g + 1 * V d P_AFB_cpaverage_num a b).
    { unfold g. rewrite <- (V_comb d W) by (try apply pl_ave; apply pl_AFB). apply V_ext. intros. rewrite !slice_fwd. unfold P_dGdq2_cpaverage, P_dGdq2, P_AFB_cpaverage_num, P_AFB_num. toR; field. }
    assert (B : V d (fun J J' => 1 * slice (PI / 2) PI J + 1 * slice (PI / 2) PI J') a b = 1 * g + -1 * V d P_AFB_cpaverage_num a b).
    { unfold g. rewrite <- (V_comb d W) by (try apply pl_ave; apply pl_AFB). apply V_ext. intros. rewrite !slice_bwd. unfold P_dGdq2_cpaverage, P_dGdq2, P_AFB_cpaverage_num, P_AFB_num. toR; field. }
    rewrite F, B, <- E2. fold g. toR; field. split; [intros z; apply g0; lra | exact g0].
Qed.
(** the CP asymmetry *)
Theorem C134_ACP (d : pll) (a b x : R) : pll_ok d -> bpll_bin d "ACP" a b = Some x ->
  let G := RInt (pll_one d (k_h d) 0 PI) a b in let G' := RInt (pll_one d (k_hbar d) 0 PI) a b in G + G' <> 0 -> x = (G - G') / (G + G').
Proof.
  intros W E G G' N. change (bpll_bin d "ACP" a b) with (Some (bpll_obs_int_ratio d P_dGdq2_cpdiff P_dGdq2_cpaverage a b)) in E. injection E as E. unfold bpll_obs_int_ratio in E. rewrite ratio0_div, !obs_V in E.
  destruct (one_V d W 0 PI a b) as (e & e'). fold G in e. fold G' in e'.
  assert (F : V d P_dGdq2_cpaverage a b = 1 / 2 * G + 1 / 2 * G').
  { rewrite e, e', <- (V_comb d W) by apply pl_slice. apply V_ext. intros. rewrite !slice_all. unfold P_dGdq2_cpaverage. toR; field. }
  assert (H : V d P_dGdq2_cpdiff a b = 1 / 2 * G + - 1 / 2 * G').
  { rewrite e, e', <- (V_comb d W) by apply pl_slice. apply V_ext. intros. rewrite !slice_all. unfold P_dGdq2_cpdiff. toR; field. }
  rewrite <- E, F, H. toR; field. try split; first [exact N | lra].
Qed.
(** bounds *)
Lemma name_cases name (d : pll) a b x : bpll_bin d name a b = Some x -> name = "ACP" \/ name = "AFB" \/ name = "FH".
Proof.
  unfold bpll_bin, _observables_bp. cbn [entry]. destruct ("ACP" =? name)%string eqn:E1; [apply String.eqb_eq in E1; auto |]. destruct ("AFB" =? name)%string eqn:E2; [apply String.eqb_eq in E2; auto |].
  destruct ("FH" =? name)%string eqn:E3; [apply String.eqb_eq in E3; auto | discriminate].
Qed.
Theorem C134_bounds (d : pll) (a b fh afb acp : R) : pll_ok d -> a <= b -> bpll_bin d "FH" a b = Some fh -> bpll_bin d "AFB" a b = Some afb -> bpll_bin d "ACP" a b = Some acp ->
  0 <= fh <= 3 /\ Rabs afb <= fh / 2 /\ -1 <= acp <= 1 /\ (tensor_free_p d -> fh <= 1 /\ Rabs afb <= 1 / 2).
Proof.
  intros W L E1 E2 E3. change (bpll_bin d "FH" a b) with (Some (bpll_obs_int_ratio d P_FH_cpaverage_num P_dGdq2_cpaverage a b)) in E1. change (bpll_bin d "AFB" a b) with (Some (bpll_obs_int_ratio d P_AFB_cpaverage_num P_dGdq2_cpaverage a b)) in E2.
  change (bpll_bin d "ACP" a b) with (Some (bpll_obs_int_ratio d P_dGdq2_cpdiff P_dGdq2_cpaverage a b)) in E3.
  injection E1 as E1. injection E2 as E2. injection E3 as E3. unfold bpll_obs_int_ratio in E1, E2, E3. rewrite ratio0_div, !obs_V in E1, E2, E3.
  assert (P : forall q, pthr d <= q <= ptop d -> (Rabs (Jb (Jp d q)) <= Ja (Jp d q) + Jc (Jp d q) /\ 0 <= Ja (Jp d q)) /\ (Rabs (Jb (Jp' d q)) <= Ja (Jp' d q) + Jc (Jp' d q) /\ 0 <= Ja (Jp' d q))).
  { intros q (q1 & _). destruct (p_pos d W (k_h d) q q1) as (u & v & _). destruct (p_pos d W (k_hbar d) q q1) as (u' & v' & _). unfold Jp, Jp'. lra. }
  set (g := V d P_dGdq2_cpaverage a b) in *. set (f := V d P_FH_cpaverage_num a b) in *. set (s := V d P_AFB_cpaverage_num a b) in *. set (c := V d P_dGdq2_cpdiff a b) in *.
  Ltac upos W L P := apply (V_pos _ W); [apply pl_comb; first [apply pl_ave | apply pl_FH | apply pl_AFB | apply pl_diff] | exact L |]; let q := fresh in let Q := fresh in intros q Q; destruct (P q Q) as ((?u & ?v) & (?u' & ?v')); cbv beta;
    unfold P_dGdq2_cpaverage, P_dGdq2, P_FH_cpaverage_num, P_FH_num, P_AFB_cpaverage_num, P_AFB_num, P_dGdq2_cpdiff, P_dGdq2 in *; repeat match goal with H : Rabs _ <= _ |- _ => apply Rabs_le_between in H end; lra.
  assert (f0 : 0 <= 1 * f + 0 * g) by (unfold f, g; rewrite <- (V_comb d W) by (try apply pl_ave; apply pl_FH); upos W L P).
  assert (g0 : 0 <= 1 * g + 0 * f) by (unfold f, g; rewrite <- (V_comb d W) by (try apply pl_ave; apply pl_FH); upos W L P).
  assert (f3 : 0 <= 3 * g + -1 * f) by (unfold f, g; rewrite <- (V_comb d W) by (try apply pl_ave; apply pl_FH); upos W L P).
  assert (s1 : 0 <= 1 * f + 2 * s) by (unfold f, s; rewrite <- (V_comb d W) by (try apply pl_AFB; apply pl_FH); upos W L P).
  assert (s2 : 0 <= 1 * f + -2 * s) by (unfold f, s; rewrite <- (V_comb d W) by (try apply pl_AFB; apply pl_FH); upos W L P).
  assert (c1 : 0 <= 1 * g + 1 * c) by (unfold g, c; rewrite <- (V_comb d W) by (try apply pl_ave; apply pl_diff); upos W L P).
  assert (c2 : 0 <= 1 * g + -1 * c) by (unfold g, c; rewrite <- (V_comb d W) by (try apply pl_ave; apply pl_diff); upos W L P).
  assert (fh1 : tensor_free_p d -> 0 <= 1 * g + -1 * f).
  { intros T. unfold f, g. rewrite <- (V_comb d W) by (try apply pl_ave; apply pl_FH). apply (V_pos d W); [apply pl_comb; [apply pl_ave | apply pl_FH] | exact L |]. intros q Q. cbv beta. destruct (T q Q) as ((t1 & t2) & (t3 & t4)). assert (HB : 0 < k_mB d) by apply W.
    pose proof (c_neg (k_h d q) q (k_mB d) (k_mP d) _ _ (pphys d W q (proj1 Q)) HB t1 t2) as n1. pose proof (c_neg (k_hbar d q) q (k_mB d) (k_mP d) _ _ (pphys d W q (proj1 Q)) HB t3 t4) as n2. unfold Jp, Jp', P_dGdq2_cpaverage, P_dGdq2, P_FH_cpaverage_num, P_FH_num. lra. }
  assert (D : forall x k, 0 <= k -> 0 <= k * g - x -> 0 <= k * g + x -> -k <= x / g <= k).
  { intros x k K h1 h2. apply Rabs_le_between, div_abs; [exact K |]. apply Rabs_le_between. lra. }
  assert (Dp : forall x, 0 <= x -> 0 <= g -> 0 <= x / g) by (intros x h1 h2; rewrite <- ratio0_div; now apply ratio0_pos).
  rewrite <- E1, <- E2, <- E3. assert (A : Rabs (s / g) <= f / g / 2).
  { destruct (Req_dec g 0) as [z | z]; [assert (sz : s = 0) by lra; rewrite sz; unfold Rdiv; rewrite !Rmult_0_l, Rabs_R0; assert (fz : f = 0) by lra; rewrite fz; lra |].
    assert (gp : 0 < g) by lra. unfold Rdiv. rewrite Rabs_mult, Rabs_inv, (Rabs_right g) by lra. apply (Rmult_le_reg_r g); [exact gp |]. rewrite Rmult_assoc, Rinv_l by lra. replace (f * / g * / 2 * g) with (f / 2 * (/ g * g)) by (unfold Rdiv; toR; ring). rewrite Rinv_l by lra. rewrite !Rmult_1_r. apply Rabs_le_between. lra. }
  refine (conj (conj _ _) (conj A (conj _ _))).
  - apply Dp; lra.
  - apply (D f 3); lra.
  - apply (D c 1); lra.
  - intros T. specialize (fh1 T). assert (F1 : f / g <= 1) by (apply (D f 1); lra). split; [exact F1 | lra].
Qed.
(** observables at a point of the spectrum *)
Theorem C134_differential (d : pll) (q2 fh afb acp : R) : pll_ok d -> bpll_diff d "FH" q2 = Some fh -> bpll_diff d "AFB" q2 = Some afb -> bpll_diff d "ACP" q2 = Some acp ->
  let N := pll_rate d 0 PI q2 in N <> 0 ->
  (forall th, pll_angular d th q2 = N * (3 / 4 * (1 - fh) * sin th ^ 2 + fh / 2 + afb * cos th) * sin th) /\ acp * N = pll_one d (k_h d) 0 PI q2 - pll_one d (k_hbar d) 0 PI q2.
Proof.
  intros W E1 E2 E3 N N0. change (bpll_diff d "FH" q2) with (Some (bpll_obs_ratio d P_FH_cpaverage_num P_dGdq2_cpaverage q2)) in E1. change (bpll_diff d "AFB" q2) with (Some (bpll_obs_ratio d P_AFB_cpaverage_num P_dGdq2_cpaverage q2)) in E2.
  change (bpll_diff d "ACP" q2) with (Some (bpll_obs_ratio d P_dGdq2_cpdiff P_dGdq2_cpaverage q2)) in E3. injection E1 as E1. injection E2 as E2. injection E3 as E3. unfold bpll_obs_ratio in E1, E2, E3. rewrite ratio0_div, !obs_within in E1, E2, E3.
  unfold N in *. rewrite (rate_both d W) in *. rewrite (one_h d W), (one_hbar d W). rewrite <- E1, <- E2, <- E3. clear E1 E2 E3.
  unfold within in *. destruct (Rle_dec q2 (pthr d)) as [l | l]; [exfalso; lra |]. destruct (Rlt_dec (ptop d) q2) as [m | m]; [exfalso; lra |]. rewrite !slice_all in *.
  assert (D : P_dGdq2_cpaverage (Jp d q2) (Jp' d q2) <> 0) by (unfold P_dGdq2_cpaverage; lra). split.
  - intros th. rewrite (ang_both d W). unfold within. destruct (Rle_dec q2 (pthr d)) as [l' | l']; [exfalso; lra |]. destruct (Rlt_dec (ptop d) q2) as [m' | m']; [exfalso; lra |].
    replace (P_dGdq2 (Jp d q2) + P_dGdq2 (Jp' d q2)) with (2 * P_dGdq2_cpaverage (Jp d q2) (Jp' d q2)) by (unfold P_dGdq2_cpaverage; toR; field).
    unfold distribution_p. replace (cos th ^ 2) with (1 - sin th ^ 2) by (pose proof (sin_sq th); simpl; lra).
    transitivity ((2 * P_dGdq2_cpaverage (Jp d q2) (Jp' d q2) * (3 / 4 * sin th ^ 2) + P_FH_cpaverage_num (Jp d q2) (Jp' d q2) * (1 - 3 / 2 * sin th ^ 2) + 2 * P_AFB_cpaverage_num (Jp d q2) (Jp' d q2) * cos th) * sin th).
    + unfold P_dGdq2_cpaverage, P_dGdq2, P_FH_cpaverage_num, P_FH_num, P_AFB_cpaverage_num, P_AFB_num. toR; field.
    + toR; field. exact D.
  - transitivity (2 * P_dGdq2_cpdiff (Jp d q2) (Jp' d q2)).
    + replace (P_dGdq2 (Jp d q2) + P_dGdq2 (Jp' d q2)) with (2 * P_dGdq2_cpaverage (Jp d q2) (Jp' d q2)) by (unfold P_dGdq2_cpaverage; toR; field). toR; field. exact D.
    + unfold P_dGdq2_cpdiff. toR; field.
Qed.
(** ratios of lepton flavours *)
Theorem C134_R (d1 d2 : pll) (a b : R) : pll_ok d1 -> pll_ok d2 -> a < b -> k_tau d1 = k_tau d2 -> 0 < k_tau d1 -> k_name d1 = k_name d2 -> bpll_dbrdq2_int d2 a b <> 0 ->
  bpll_obs_int_ratio_leptonflavour P_dGdq2_cpaverage d1 d2 a b = bpll_dbrdq2_int d1 a b / bpll_dbrdq2_int d2 a b /\ 0 <= bpll_obs_int_ratio_leptonflavour P_dGdq2_cpaverage d1 d2 a b.
Proof.
  intros W1 W2 L Et T0 En N. assert (E : forall d, pll_ok d -> bpll_dbrdq2_int d a b = k_tau d * share neutral_p (k_name d) / (b - a) * bpll_obs_int d P_dGdq2_cpaverage a b).
  { intros d W. unfold bpll_dbrdq2_int, bpll_obs_int, nintegrate. rewrite (ext_R (bpll_dbrdq2 d) (fun q => k_tau d * share neutral_p (k_name d) * bpll_obs d P_dGdq2_cpaverage q)) by apply share_p.
    rewrite RI_scal; [toR; field; lra |]. apply (ex_RInt_ext (within d (fun q => P_dGdq2_cpaverage (Jp d q) (Jp' d q)))); [intros; symmetry; apply obs_within | apply (within_int d W), pl_ave]. }
  unfold bpll_obs_int_ratio_leptonflavour. rewrite ratio0_div. pose proof (share_pos neutral_p (k_name d1)) as S0.
  assert (Q : forall d, pll_ok d -> 0 <= bpll_obs_int d P_dGdq2_cpaverage a b).
  { intros d W. rewrite obs_V. apply (V_pos d W); [apply pl_ave | lra |]. intros q (q1 & _). destruct (p_pos d W (k_h d) q q1) as (_ & _ & p). destruct (p_pos d W (k_hbar d) q q1) as (_ & _ & p'). unfold P_dGdq2_cpaverage, Jp, Jp'. lra. }
  split; [| rewrite <- ratio0_div; apply ratio0_pos; now apply Q]. rewrite !E in * by assumption. rewrite <- Et, <- En in *. set (t := k_tau d1) in *. set (s := share _ _) in *. set (y := bpll_obs_int d2 _ _ _) in *.
  assert (y0 : y <> 0) by (intros z; apply N; rewrite z; toR; ring). toR; field. repeat split; try assumption; lra.
Qed.
(** the hypotheses are met *)
Definition ex_pamps (x : C) : pamps := {| pV := x; pA := x; pS := RtoC 0; pP := RtoC 0; pT := RtoC 0; pTt := RtoC 0 |}.
Definition ex_pll : pll := Pll 10 1 1 (1 / 2) "K+" (fun _ => ex_pamps (RtoC 1)) (fun _ => ex_pamps (RtoC 2)).
Lemma ex_pok : pll_ok ex_pll.
Proof.
  unfold pll_ok, pthr, ptop, ex_pll. cbn [k_ml k_mB k_mP k_tau]. refine (conj _ (conj _ (conj _ (conj _ _)))); try lra.
  assert (Q : forall z, let J t := angularcoeffs_general_p (ex_pamps z) t 10 1 (1 / 2) (1 / 2) in ex_RInt (fun q => Ja (J q)) (4 * (1 / 2) ^ 2) ((10 - 1) ^ 2) /\ ex_RInt (fun q => Jb (J q)) (4 * (1 / 2) ^ 2) ((10 - 1) ^ 2) /\ ex_RInt (fun q => Jc (J q)) (4 * (1 / 2) ^ 2) ((10 - 1) ^ 2)).
  { intros z J. assert (C : forall x, 0 < x -> rc (fun t => Ja (J t)) x /\ rc (fun t => Jb (J t)) x /\ rc (fun t => Jc (J t)) x).
    { intros x X. apply (Jp_cont (fun _ => ex_pamps z)); [lra | exact X |]. repeat split; apply rc_const. }
    refine (conj (int_cont (fun q => Ja (J q)) _ _ _ _) (conj (int_cont (fun q => Jb (J q)) _ _ _ _) (int_cont (fun q => Jc (J q)) _ _ _ _))); try lra; intros x X; assert (X0 : 0 < x) by lra; destruct (C x X0) as (C1 & C2 & C3); assumption. }
  split; apply Q.
Qed.
Example C134_met : pll_ok ex_pll /\ tensor_free_p ex_pll /\ pthr ex_pll < 4 /\ 4 <= ptop ex_pll /\ pthr ex_pll < ptop ex_pll /\ pll_rate ex_pll 0 PI 4 <> 0 /\ share neutral_p (k_name ex_pll) = 1.
Proof.
  assert (T : pthr ex_pll < 4 /\ 4 <= ptop ex_pll) by (unfold pthr, ptop, ex_pll; cbn [k_ml k_mB k_mP]; lra). destruct T as (T1 & T2).
  assert (R : pll_rate ex_pll 0 PI 4 <> 0).
  { rewrite (rate_both _ ex_pok). unfold within. destruct (Rle_dec 4 (pthr ex_pll)); [lra |]. destruct (Rlt_dec (ptop ex_pll) 4); [lra |]. rewrite !slice_all.
    assert (Ph : physical 4 (1 / 2) (1 / 2)) by (unfold physical; lra). assert (HB : 0 < 10) by lra.
    assert (P0 : 0 < normalisation 4 10 1 (1 / 2) (1 / 2)).
    { unfold normalisation, triangle. apply Rdiv_lt_0_compat; [apply Rmult_lt_0_compat; apply sqrt_lt_R0; lra |]. apply Rmult_lt_0_compat; [| lra]. apply Rmult_lt_0_compat; [| lra]. apply Rmult_lt_0_compat; [lra | apply pow_lt, PI_RGT_0]. }
    assert (Q : forall x : R, 0 < x -> 0 < P_dGdq2 (angularcoeffs_general_p (ex_pamps (RtoC x)) 4 10 1 (1 / 2) (1 / 2))).
    { intros x X. pose proof (distribution_p_is (ex_pamps (RtoC x)) 4 10 1 (1 / 2) (1 / 2) Ph (PI / 2)) as D. unfold distribution_p in D. rewrite cos_PI2 in D.
      set (J := angularcoeffs_general_p _ _ _ _ _ _) in *. destruct (ac_b (ex_pamps (RtoC x)) 4 10 1 (1 / 2) (1 / 2) Ph HB) as (u & v). fold J in u, v.
      assert (A : 0 < Ja J).
      { replace (Ja J) with (Ja J + Jb J * 0 + Jc J * 0 ^ 2) by ring. rewrite D. apply Rmult_lt_0_compat; [lra |]. unfold helicity_sum_p. cbv zeta. rewrite sin_PI2, cos_PI2.
        assert (F : 0 < Cmod (flip 4 (1 / 2) (1 / 2) (longitudinal (ex_pamps (RtoC x))) (-1) H0) ^ 2).
        { apply pow_lt, Cmod_gt_0. unfold flip, longitudinal, ex_pamps. cbn [aV aA aT aTt pV pA pT pTt]. intros z.
          assert (z' : RtoC ((vT 4 (1 / 2) (1 / 2) + aT_ 4 (1 / 2) (1 / 2)) * x) = RtoC 0). { rewrite RtoC_mult, RtoC_plus. rewrite <- z. replace (RtoC (-1)) with (- RtoC 1)%C by (rewrite <- RtoC_opp; f_equal; lra). ring. }
          apply RtoC_inj in z'. assert (V0 : 0 < vT 4 (1 / 2) (1 / 2)).
          { destruct (kin _ _ _ Ph) as (s & i & k & E1 & E2 & K). unfold vT, u1, u2, w1, w2. destruct K as [Ks Kp Ki Kk Ksum KE1 KE2 L1 L2 Kla e1 e2]. rewrite !e1.
            assert (0 < sqrt (E1 + 1 / 2) * sqrt (E1 + 1 / 2)) by (apply Rmult_lt_0_compat; apply sqrt_lt_R0; lra). assert (0 <= sqrt (E1 - 1 / 2) * sqrt (E1 - 1 / 2)) by (apply Rmult_le_pos; apply sqrt_pos). lra. }
          assert (A0 : 0 <= aT_ 4 (1 / 2) (1 / 2)) by (unfold aT_; apply Rplus_le_le_0_compat; apply Rmult_le_pos; apply sqrt_pos).
          assert (0 < (vT 4 (1 / 2) (1 / 2) + aT_ 4 (1 / 2) (1 / 2)) * x) by (apply Rmult_lt_0_compat; lra). lra. }
        match goal with |- 0 < _ / 2 * (?p + ?q) + ?r + ?s => pose proof (pow2_ge_0 (Cmod (flip 4 (1 / 2) (1 / 2) (longitudinal (ex_pamps (RtoC x))) 1 H0))); assert (0 <= r) by apply pow2_ge_0; assert (0 <= s) by apply pow2_ge_0 end. lra. }
      pose proof (Rabs_pos (Jb J)). unfold P_dGdq2. lra. }
    pose proof (Q 1 ltac:(lra)) as q1. pose proof (Q 2 ltac:(lra)) as q2. unfold Jp, Jp', ex_pll. cbn [k_h k_hbar k_mB k_mP k_ml]. lra. }
  refine (conj ex_pok (conj _ (conj T1 (conj T2 (conj _ (conj R _)))))); [intros q _; repeat split; reflexivity | lra |].
  unfold share, neutral_p, ex_pll. cbn [k_name]. destruct (in_dec _ _ _) as [i | i]; [destruct i as [i | []]; discriminate | reflexivity].
Qed.
Print Assumptions C134_total.
Print Assumptions C134_angular.
Print Assumptions C134_bounds.
