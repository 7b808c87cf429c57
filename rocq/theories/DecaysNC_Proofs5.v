(** * Proofs for the neutral-current observables: B -> P l l *)
From Coq Require Import Reals Lra.
From Coquelicot Require Import Coquelicot.
From Verif Require Import Base Basics_Model Basics_Proofs Angular_Model Angular_Spec Angular_Proofs Angular_Proofs2 Angular_Proofs3 Angular_Proofs4 Angular_Proofs5 Angular_Proofs6 Angular_Proofs7 Angular_Proofs8 Angular_Proofs9 Decays_Model Decays_Spec Decays_Proofs Decays_Proofs2 Decays_Proofs3 Decays_Proofs4 Decays_Proofs5 DecaysNC_Model DecaysNC_Spec DecaysNC_Proofs DecaysNC_Proofs3 DecaysNC_Proofs4.
Local Open Scope string_scope.
Local Open Scope R_scope.

Definition plin (x y z : R) (J : pcoeffs) : R := x * Ja J + y * Jb J + z * Jc J.
Definition plinear (f : pcoeffs -> pcoeffs -> R) : Prop := exists x y z x' y' z', forall J J', f J J' = plin x y z J + plin x' y' z' J'.
Definition pover (J : R -> pcoeffs) (a b : R) : pcoeffs := {| Ja := RInt (fun q => Ja (J q)) a b; Jb := RInt (fun q => Jb (J q)) a b; Jc := RInt (fun q => Jc (J q)) a b |}.
Definition pint (J : R -> pcoeffs) (a b : R) : Prop := int (fun q => Ja (J q)) a b /\ int (fun q => Jb (J q)) a b /\ int (fun q => Jc (J q)) a b.
Lemma plin_int (J : R -> pcoeffs) (a b x y z : R) : pint J a b -> int (fun q => plin x y z (J q)) a b /\ RInt (fun q => plin x y z (J q)) a b = plin x y z (pover J a b).
Proof.
  intros (p1 & p2 & p3). unfold plin, pover. cbn [Ja Jb Jc].
  assert (i1 := int_scal _ a b x p1). assert (i2 := int_scal _ a b y p2). assert (i3 := int_scal _ a b z p3). assert (i12 := int_plus _ _ a b i1 i2). cbv beta in i12.
  split; [exact (int_plus _ _ a b i12 i3) |].
  rewrite (RI_plus (fun q => x * Ja (J q) + y * Jb (J q)) (fun q => z * Jc (J q)) a b i12 i3), (RI_plus (fun q => x * Ja (J q)) (fun q => y * Jb (J q)) a b i1 i2), (RI_scal _ a b x p1), (RI_scal _ a b y p2), (RI_scal _ a b z p3). reflexivity.
Qed.
Lemma plinear_int f (J J' : R -> pcoeffs) (a b : R) : plinear f -> pint J a b -> pint J' a b -> int (fun q => f (J q) (J' q)) a b /\ RInt (fun q => f (J q) (J' q)) a b = f (pover J a b) (pover J' a b).
Proof.
  intros (x & y & z & x' & y' & z' & E) P P'. destruct (plin_int J a b x y z P) as (i & v). destruct (plin_int J' a b x' y' z' P') as (i' & v').
  split; [apply (ex_RInt_ext (fun q => plin x y z (J q) + plin x' y' z' (J' q))); [intros; symmetry; apply E | now apply (int_plus (fun q => plin x y z (J q)) (fun q => plin x' y' z' (J' q)))] |].
  rewrite (ext_R _ (fun q => plin x y z (J q) + plin x' y' z' (J' q))) by (intros; apply E). rewrite (RI_plus (fun q => plin x y z (J q)) (fun q => plin x' y' z' (J' q)) a b i i'), v, v', E. reflexivity.
Qed.
(** integrals over the angle *)
Lemma th_int (J : pcoeffs) (a b : R) : int (fun th => distribution_p J th * sin th) a b /\
  RInt (fun th => distribution_p J th * sin th) a b = plin (cos a - cos b) ((cos a ^ 2 - cos b ^ 2) / 2) ((cos a ^ 3 - cos b ^ 3) / 3) J.
Proof.
  assert (I : is_RInt (fun th => distribution_p J th * sin th) a b (plin (- cos b) (- cos b ^ 2 / 2) (- cos b ^ 3 / 3) J - plin (- cos a) (- cos a ^ 2 / 2) (- cos a ^ 3 / 3) J)).
  { apply (is_RInt_derive (fun t => plin (- cos t) (- cos t ^ 2 / 2) (- cos t ^ 3 / 3) J)).
    - intros x _. unfold plin, distribution_p. auto_derive; [easy | field].
    - intros x _. unfold distribution_p. apply (ex_derive_continuous (V := R_NormedModule)). auto_derive. easy. }
  split; [eexists; exact I |]. rewrite (is_RInt_unique _ _ _ _ I). unfold plin. toR. field.
Qed.
Section P.
  Variable d : pll.
  Hypothesis W : pll_ok d.
  Lemma prange : 0 < pthr d <= ptop d.
  Proof using W.
    destruct W as (m & L & _). unfold pthr, ptop. split; [apply Rmult_lt_0_compat; [lra | apply pow_lt; exact m] |].
    replace (4 * k_ml d ^ 2) with ((2 * k_ml d) ^ 2) by ring. apply pow_incr. lra.
  Qed.
  Lemma pphys (q2 : R) : pthr d <= q2 -> physical q2 (k_ml d) (k_ml d).
  Proof using W. intros L. pose proof prange as r. destruct W as (m & _). unfold physical. refine (conj _ (conj _ (conj _ _))); try lra. unfold pthr in *. replace ((k_ml d + k_ml d) ^ 2) with (4 * k_ml d ^ 2) by ring. exact L. Qed.
  Lemma p_full : pint (Jp d) (pthr d) (ptop d) /\ pint (Jp' d) (pthr d) (ptop d).
  Proof using W. destruct W as (_ & _ & _ & _ & I & I'). split; assumption. Qed.
  (** no phase space at threshold *)
  Lemma norm0 : normalisation (pthr d) (k_mB d) (k_mP d) (k_ml d) (k_ml d) = 0.
  Proof using. unfold normalisation, pthr. replace (triangle (4 * k_ml d ^ 2) (k_ml d ^ 2) (k_ml d ^ 2)) with 0 by (unfold triangle; ring). rewrite sqrt_0. unfold Rdiv. ring. Qed.
  Lemma J_thr (h : pamps) : let J := angularcoeffs_general_p h (pthr d) (k_mB d) (k_mP d) (k_ml d) (k_ml d) in Ja J = 0 /\ Jb J = 0 /\ Jc J = 0.
  Proof using W.
    intros J. destruct prange as (r0 & _). assert (Ph := pphys (pthr d) (Rle_refl _)).
    assert (E : forall th, distribution_p J th = distribution_p {| Ja := 0; Jb := 0; Jc := 0 |} th).
    { intros th. unfold J. rewrite distribution_p_is by exact Ph. rewrite norm0. unfold distribution_p. cbn [Ja Jb Jc]. ring. }
    exact (same_p J {| Ja := 0; Jb := 0; Jc := 0 |} E).
  Qed.
  Lemma within_clip f q2 : plinear f -> within d (fun q => f (Jp d q) (Jp' d q)) q2 = clip (pthr d) (ptop d) (fun q => f (Jp d q) (Jp' d q)) q2.
  Proof using W.
    intros (x & y & z & x' & y' & z' & E). unfold within, clip. destruct (Rle_dec q2 (pthr d)) as [l | l]; destruct (Rlt_dec q2 (pthr d)) as [m | m]; try reflexivity; try lra.
    assert (Q : q2 = pthr d) by lra. destruct (Rlt_dec (ptop d) q2); [reflexivity |]. rewrite Q, E. unfold plin, Jp, Jp'. destruct (J_thr (k_h d (pthr d))) as (a1 & a2 & a3). destruct (J_thr (k_hbar d (pthr d))) as (b1 & b2 & b3). rewrite a1, a2, a3, b1, b2, b3. ring.
  Qed.
  Lemma obs_within f q2 : bpll_obs d f q2 = within d (fun q => f (Jp d q) (Jp' d q)) q2.
  Proof using. unfold bpll_obs, within, pthr. replace ((k_ml d + k_ml d) ^ 2) with (4 * k_ml d ^ 2) by ring. reflexivity. Qed.
  Lemma within_int f a b : plinear f -> int (within d (fun q => f (Jp d q) (Jp' d q))) a b.
  Proof using W.
    intros F. assert (Q : forall x y, x <= y -> int (within d (fun q => f (Jp d q) (Jp' d q))) x y).
    { intros x y L. apply (ex_RInt_ext (clip (pthr d) (ptop d) (fun q => f (Jp d q) (Jp' d q)))); [intros; symmetry; now apply within_clip |]. apply clip_integrable; [exact L |]. intros _. apply plinear_int; [exact F | apply p_full | apply p_full]. }
    destruct (Rle_dec a b) as [L | L]; [now apply Q |]. apply ex_RInt_swap, Q. lra.
  Qed.
  (** densities *)
  Lemma dens h q2 th : pthr d <= q2 -> pll_density d h q2 th = distribution_p (angularcoeffs_general_p (h q2) q2 (k_mB d) (k_mP d) (k_ml d) (k_ml d)) th * sin th.
  Proof using W. intros L. unfold pll_density. rewrite distribution_p_is by now apply pphys. reflexivity. Qed.
  Definition slice a b (J : pcoeffs) : R := plin (cos a - cos b) ((cos a ^ 2 - cos b ^ 2) / 2) ((cos a ^ 3 - cos b ^ 3) / 3) J.
  Lemma dens_int h q2 a b : pthr d <= q2 -> RInt (fun th => pll_density d h q2 th) a b = slice a b (angularcoeffs_general_p (h q2) q2 (k_mB d) (k_mP d) (k_ml d) (k_ml d)).
  Proof using W. intros L. unfold slice. rewrite <- (proj2 (th_int _ a b)). apply ext_R. intros th. now apply dens. Qed.
  Lemma within_ext g g' q2 : (pthr d <= q2 -> g q2 = g' q2) -> within d g q2 = within d g' q2.
  Proof using. intros E. unfold within. destruct (Rle_dec q2 (pthr d)); [reflexivity |]. destruct (Rlt_dec (ptop d) q2); [reflexivity |]. apply E. lra. Qed.
  Lemma one_h a b q2 : pll_one d (k_h d) a b q2 = within d (fun q => slice a b (Jp d q)) q2.
  Proof using W. apply within_ext. intros L. now apply dens_int. Qed.
  Lemma one_hbar a b q2 : pll_one d (k_hbar d) a b q2 = within d (fun q => slice a b (Jp' d q)) q2.
  Proof using W. apply within_ext. intros L. now apply dens_int. Qed.
  Lemma rate_both a b q2 : pll_rate d a b q2 = within d (fun q => slice a b (Jp d q) + slice a b (Jp' d q)) q2.
  Proof using W. unfold pll_rate. rewrite one_h, one_hbar. unfold within. destruct (Rle_dec q2 (pthr d)); [ring |]. destruct (Rlt_dec (ptop d) q2); [ring | reflexivity]. Qed.
  Lemma ang_both th q2 : pll_angular d th q2 = within d (fun q => (distribution_p (Jp d q) th + distribution_p (Jp' d q) th) * sin th) q2.
  Proof using W. apply within_ext. intros L. rewrite !dens by exact L. unfold Jp, Jp'. ring. Qed.
  Lemma slice_all J : slice 0 PI J = P_dGdq2 J.
  Proof using. unfold slice, plin, P_dGdq2. rewrite cos_0, cos_PI. field. Qed.
  Lemma slice_fwd J : slice 0 (PI / 2) J = Ja J + Jb J / 2 + Jc J / 3.
  Proof using. unfold slice, plin. rewrite cos_0, cos_PI2. field. Qed.
  Lemma slice_bwd J : slice (PI / 2) PI J = Ja J - Jb J / 2 + Jc J / 3.
  Proof using. unfold slice, plin. rewrite cos_PI, cos_PI2. field. Qed.
  (** pointwise bounds *)
  Lemma p_pos h q2 : pthr d <= q2 -> let J := angularcoeffs_general_p (h q2) q2 (k_mB d) (k_mP d) (k_ml d) (k_ml d) in Rabs (Jb J) <= Ja J + Jc J /\ 0 <= Ja J /\ 0 <= P_dGdq2 J.
  Proof using W.
    intros L J. assert (HB : 0 < k_mB d) by apply W. destruct (ac_b (h q2) q2 (k_mB d) (k_mP d) _ _ (pphys q2 L) HB) as (u & v). fold J in u, v. pose proof (Rabs_pos (Jb J)).
    refine (conj u (conj v _)). unfold P_dGdq2. lra.
  Qed.
End P.
