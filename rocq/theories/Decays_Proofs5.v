(** * Proofs for the decay observables: charged currents with a pseudoscalar meson, bins and averages over lepton flavours *)
From Coq Require Import Reals Lra.
From Coquelicot Require Import Coquelicot.
From Verif Require Import Base Basics_Model Basics_Proofs Angular_Model Angular_Spec Angular_Proofs Angular_Proofs2 Angular_Proofs3 Angular_Proofs4 Angular_Proofs5 Angular_Proofs6 Angular_Proofs7 Angular_Proofs8 Angular_Proofs9 Decays_Model Decays_Spec Decays_Proofs Decays_Proofs2 Decays_Proofs3 Decays_Proofs4.
Local Open Scope R_scope.

Lemma same_p (J J' : pcoeffs) : (forall th, distribution_p J th = distribution_p J' th) -> Ja J = Ja J' /\ Jb J = Jb J' /\ Jc J = Jc J'.
Proof.
  intros E. pose proof (E 0) as a. pose proof (E (PI / 2)) as b. pose proof (E PI) as c. unfold distribution_p in a, b, c. rewrite cos_0 in a. rewrite cos_PI2 in b. rewrite cos_PI in c. lra.
Qed.
Lemma hsp_zero (q2 m1 m2 : R) (h : pamps) th : pV h = RtoC 0 -> pA h = RtoC 0 -> pP h = RtoC 0 -> pS h = RtoC 0 -> pT h = RtoC 0 -> pTt h = RtoC 0 -> helicity_sum_p q2 m1 m2 h th = 0.
Proof.
  intros v a p s t t'. unfold helicity_sum_p. cbv zeta. unfold flip, same_v, same_a, scalar, pseudo, longitudinal. cbn [aV aA aP aS aT aTt]. rewrite v, a, p, s, t, t'.
  unfold Cminus. rewrite !Cmult_0_r, !Cplus_0_r, !Cmult_0_r, !Copp_0, !Cplus_0_r, !Cmod_0. ring.
Qed.
Section CP.
  Variables (d : lnu) (l : lep3).
  Hypothesis W : well_posed d.
  Notation ml := (m_lep d l).
  Notation Jp nu q2 := (angularcoeffs_general_p (pamps_lnu d l nu q2) q2 (m_B d) (m_M d) ml 0).
  Lemma pcoeff_nu (q2 : R) (nu : lep3) : in_range d l q2 -> let J := _get_angularcoeff_p d q2 l nu in
    Ja J = Ja (Jp nu q2) /\ Jb J = Jb (Jp nu q2) /\ Jc J = Jc (Jp nu q2).
  Proof using W.
    intros I J. pose proof (range_phys d l W q2 I) as Ph. unfold J, _get_angularcoeff_p. destruct (negb (lep3_eqb l nu) && all_zero (wceff d l nu))%bool eqn:E.
    - apply andb_prop in E. destruct E as (_ & E). pose proof (all_zero_spec _ E) as Z. apply same_p. intros th. rewrite distribution_p_is by exact Ph.
      rewrite hsp_zero; [unfold distribution_p; cbn [Ja Jb Jc]; ring | | | | | |]; unfold pamps_lnu, helicity_amps_p; cbv zeta; cbn [pV pA pP pS pT pTt]; fold (wceff d l nu); rewrite ?Z; unfold Cdiv; ring.
    - cbv zeta. destruct (proj1 I) as [lt | eq].
      + unfold prefactor. destruct (Rle_dec q2 (ml ^ 2)) as [n | n]; [lra | repeat split; reflexivity].
      + apply same_p. intros th. rewrite !distribution_p_is by exact Ph. rewrite <- eq, norm_threshold. ring.
  Qed.
  Lemma prate_is (q2 : R) : in_range d l q2 -> p_dGdq2 (get_angularcoeff_p d q2 l) = over_nu (fun nu => p_dGdq2 (Jp nu q2)).
  Proof using W.
    intros I. unfold get_angularcoeff_p, over_nu, p_dGdq2. cbn [Ja Jc]. destruct (pcoeff_nu q2 Le I) as (a & _ & b). destruct (pcoeff_nu q2 Lmu I) as (a' & _ & b'). destruct (pcoeff_nu q2 Ltau I) as (a'' & _ & b'').
    rewrite a, a', a'', b, b', b''. field.
  Qed.
  Lemma prate_density (q2 : R) : in_range d l q2 -> p_dGdq2 (get_angularcoeff_p d q2 l) = RInt (fun th => decay_density_p d l q2 th) 0 PI.
  Proof using W.
    intros I. pose proof (range_phys d l W q2 I) as Ph. rewrite prate_is by exact I.
    assert (Q : forall nu, int (fun th => distribution_p (Jp nu q2) th * sin th) 0 PI).
    { intros nu. apply int_cont; [left; apply PI_RGT_0 |]. intros x _. apply (ex_derive_continuous (V := R_NormedModule)). unfold distribution_p. auto_derive. easy. }
    rewrite (ext_R _ (fun th => distribution_p (Jp Le q2) th * sin th + distribution_p (Jp Lmu q2) th * sin th + distribution_p (Jp Ltau q2) th * sin th)).
    - rewrite (RI_plus (fun th => distribution_p (Jp Le q2) th * sin th + distribution_p (Jp Lmu q2) th * sin th) (fun th => distribution_p (Jp Ltau q2) th * sin th)); [| apply int_plus; apply Q | apply Q].
      rewrite (RI_plus (fun th => distribution_p (Jp Le q2) th * sin th) (fun th => distribution_p (Jp Lmu q2) th * sin th)) by apply Q. rewrite !rate_p_integral. reflexivity.
    - intros th. unfold decay_density_p, over_nu. rewrite !distribution_p_is by exact Ph. toR. ring.
  Qed.
  Lemma prate_pos (q2 : R) : in_range d l q2 -> 0 <= p_dGdq2 (get_angularcoeff_p d q2 l).
  Proof using W.
    intros I. pose proof (range_phys d l W q2 I) as Ph. rewrite prate_is by exact I. destruct W as (_ & B & _).
    assert (Q : forall nu, 0 <= p_dGdq2 (Jp nu q2)).
    { intros nu. destruct (ac_b (pamps_lnu d l nu q2) q2 (m_B d) (m_M d) ml 0 Ph B) as (a & b). unfold p_dGdq2. assert (z := Rabs_pos (Jb (Jp nu q2))). lra. }
    unfold over_nu. pose proof (Q Le). pose proof (Q Lmu). pose proof (Q Ltau). lra.
  Qed.
  Lemma prate_int : int (fun q2 => p_dGdq2 (get_angularcoeff_p d q2 l)) (ml ^ 2) (endpoint d).
  Proof using W.
    pose proof (range_le d l W) as r. apply (int_ext (fun q2 => over_nu (fun nu => p_dGdq2 (Jp nu q2)))); [lra | |].
    - intros x X. symmetry. apply prate_is. unfold in_range. lra.
    - destruct W as (M & B & V & T & Fc). specialize (M l).
      assert (P : forall nu, int (fun q2 => p_dGdq2 (Jp nu q2)) (ml ^ 2) (endpoint d)).
      { intros nu. apply int_cont; [lra |]. intros x X. assert (X0 : 0 < x) by lra.
        assert (Hc : pamps_cont (fun t => pamps_lnu d l nu t) x). { unfold pamps_lnu. apply amps_p_cont; try lra. intros f. apply (Fc l). exact X. }
        destruct (Jp_cont (fun t => pamps_lnu d l nu t) (m_B d) (m_M d) ml 0 x B X0 Hc) as (a & _ & c). unfold p_dGdq2.
        apply (rc_mult x (fun _ => 2) (fun t => Ja (Jp nu t) + Jc (Jp nu t) / 3)); [apply rc_const |].
        apply (rc_plus x (fun t => Ja (Jp nu t)) (fun t => Jc (Jp nu t) / 3)); [exact a |]. apply (rc_div x (fun t => Jc (Jp nu t)) (fun _ => 3)); [exact c | apply rc_const | lra]. }
      unfold over_nu. apply (int_plus (fun q2 => p_dGdq2 (Jp Le q2) + p_dGdq2 (Jp Lmu q2)) (fun q2 => p_dGdq2 (Jp Ltau q2))); [apply (int_plus (fun q2 => p_dGdq2 (Jp Le q2)) (fun q2 => p_dGdq2 (Jp Lmu q2))) |]; apply P.
  Qed.
  Lemma plep_clip (q2 : R) : p_dBRdq2_lep d q2 l = clip (ml ^ 2) (endpoint d) (fun q2 => tau_B d * share neutral_p (meson d) * p_dGdq2 (get_angularcoeff_p d q2 l)) q2.
  Proof using.
    unfold p_dBRdq2_lep, clip, endpoint, share, neutral_p. destruct (Rlt_dec q2 _); [reflexivity |]. destruct (Rlt_dec _ q2); [reflexivity |]. cbv zeta.
    destruct (in_dec string_dec (meson d) ["pi0"]%string) as [i | i].
    - destruct i as [<- | []]. cbn [String.eqb Ascii.eqb Bool.eqb]. field.
    - destruct (String.eqb_spec (meson d) "pi0") as [e | e]; [exfalso; apply i; rewrite e; simpl; tauto | ring].
  Qed.
End CP.

(** ** Bins and averages *)
Definition avg (lep : lepton) (g : lep3 -> R) : R := match lep with Ll => (g Le + g Lmu) / 2 | Lep l => g l end.
Section Bins.
  Variables (lo : lep3 -> R) (hi : R) (F : lep3 -> R -> R) (D : R -> lepton -> R).
  Hypotheses (Hlo : forall l, lo l <= hi) (HI : forall l, int (F l) (lo l) hi) (HD : forall q2 lep, D q2 lep = avg lep (fun l => clip (lo l) hi (F l) q2)).
  Lemma clip_any (l : lep3) (a b : R) : int (clip (lo l) hi (F l)) a b.
  Proof using HI. destruct (Rle_dec a b) as [L | L]; [apply clip_integrable; [exact L | intros _; apply HI] |]. apply ex_RInt_swap, clip_integrable; [lra | intros _; apply HI]. Qed.
  Lemma D_int (lep : lepton) (a b : R) : int (fun q2 => D q2 lep) a b.
  Proof using HI HD.
    apply (ex_RInt_ext (fun q2 => avg lep (fun l => clip (lo l) hi (F l) q2))); [intros; symmetry; apply HD |]. destruct lep as [l |]; cbn [avg]; [apply clip_any |].
    apply (ex_RInt_ext (fun q2 => / 2 * (clip (lo Le) hi (F Le) q2 + clip (lo Lmu) hi (F Lmu) q2))); [intros; toR; field |].
    apply (int_scal (fun q2 => clip (lo Le) hi (F Le) q2 + clip (lo Lmu) hi (F Lmu) q2)), (int_plus (clip (lo Le) hi (F Le)) (clip (lo Lmu) hi (F Lmu))); apply clip_any.
  Qed.
  Lemma D_RInt (lep : lepton) (a b : R) : RInt (fun q2 => D q2 lep) a b = avg lep (fun l => RInt (clip (lo l) hi (F l)) a b).
  Proof using HI HD.
    rewrite (ext_R _ (fun q2 => avg lep (fun l => clip (lo l) hi (F l) q2))) by (intros; apply HD). destruct lep as [l |]; cbn [avg]; [reflexivity |].
    rewrite (ext_R _ (fun q2 => / 2 * (clip (lo Le) hi (F Le) q2 + clip (lo Lmu) hi (F Lmu) q2))) by (intros; toR; field).
    rewrite (RI_scal (fun q2 => clip (lo Le) hi (F Le) q2 + clip (lo Lmu) hi (F Lmu) q2)) by (apply int_plus; apply clip_any).
    rewrite (RI_plus (clip (lo Le) hi (F Le)) (clip (lo Lmu) hi (F Lmu))) by apply clip_any. toR. field.
  Qed.
  Lemma bins_add (lep : lepton) (a b c : R) : RInt (fun q2 => D q2 lep) a b + RInt (fun q2 => D q2 lep) b c = RInt (fun q2 => D q2 lep) a c.
  Proof using HI HD. symmetry. apply RI_chasles; apply D_int. Qed.
  Lemma bins_cover (lep : lepton) (a b : R) : (forall l, a <= lo l) -> hi <= b -> RInt (fun q2 => D q2 lep) a b = avg lep (fun l => RInt (F l) (lo l) hi).
  Proof using HI HD Hlo. intros A B. rewrite D_RInt. destruct lep as [l |]; cbn [avg]; rewrite !clip_cover by (try apply HI; try apply Hlo; try apply A; exact B); reflexivity. Qed.
  Hypothesis HP : forall l q2, lo l <= q2 <= hi -> 0 <= F l q2.
  Lemma D_pos (q2 : R) (lep : lepton) : 0 <= D q2 lep.
  Proof using HD HP.
    rewrite HD. assert (C : forall l, 0 <= clip (lo l) hi (F l) q2).
    { intros l. unfold clip. destruct (Rlt_dec q2 (lo l)) as [n | n]; [lra |]. destruct (Rlt_dec hi q2) as [m | m]; [lra |]. apply HP. lra. }
    destruct lep as [l |]; cbn [avg]; [apply C |]. pose proof (C Le). pose proof (C Lmu). lra.
  Qed.
  Lemma bins_pos (lep : lepton) (a b : R) : a <= b -> 0 <= RInt (fun q2 => D q2 lep) a b.
  Proof using HD HP HI. intros L. apply RI_pos; [exact L | apply D_int | intros; apply D_pos]. Qed.
  Lemma bins_mono (lep : lepton) (a a' b' b : R) : a <= a' -> a' <= b' -> b' <= b -> RInt (fun q2 => D q2 lep) a' b' <= RInt (fun q2 => D q2 lep) a b.
  Proof using HD HP HI.
    intros L1 L2 L3. rewrite <- (bins_add lep a a' b), <- (bins_add lep a' b' b). pose proof (bins_pos lep a a' L1). pose proof (bins_pos lep b' b L3). lra.
  Qed.
  (** no bin exceeds the whole *)
  Lemma bins_total (lep : lepton) (a b : R) : a <= b -> RInt (fun q2 => D q2 lep) a b <= avg lep (fun l => RInt (F l) (lo l) hi).
  Proof using HD HP HI Hlo.
    intros L. set (m := Rmin a (Rmin (lo Le) (Rmin (lo Lmu) (lo Ltau)))). rewrite <- (bins_cover lep m (Rmax b hi)).
    - apply bins_mono; [apply Rmin_l | exact L | apply Rmax_l].
    - assert (X1 := Rmin_r a (Rmin (lo Le) (Rmin (lo Lmu) (lo Ltau)))). assert (X2 := Rmin_l (lo Le) (Rmin (lo Lmu) (lo Ltau))). assert (X3 := Rmin_r (lo Le) (Rmin (lo Lmu) (lo Ltau))).
      assert (X4 := Rmin_l (lo Lmu) (lo Ltau)). assert (X5 := Rmin_r (lo Lmu) (lo Ltau)). unfold m. intros l. destruct l; lra.
    - apply Rmax_r.
  Qed.
End Bins.
Lemma ratio0_01 (x y : R) : 0 <= x <= y -> 0 <= ratio0 x y <= 1.
Proof.
  intros (a & b). unfold ratio0. destruct (Req_EM_T x 0) as [e | e]; [lra |]. assert (X : 0 < x) by (destruct a as [a | a]; [exact a | exfalso; apply e; symmetry; exact a]).
  split; [apply Rmult_le_pos; [lra | left; apply Rinv_0_lt_compat; lra] |]. apply (Rmult_le_reg_r y); [lra |]. unfold Rdiv. rewrite Rmult_assoc, Rinv_l by lra. lra.
Qed.
Lemma ratio0_div (x y : R) : ratio0 x y = x / y.
Proof. unfold ratio0. destruct (Req_EM_T x 0) as [-> | e]; [unfold Rdiv; ring | reflexivity]. Qed.
Lemma ratio0_pos (x y : R) : 0 <= x -> 0 <= y -> 0 <= ratio0 x y.
Proof.
  intros a [b | b]; rewrite ratio0_div; [apply Rmult_le_pos; [exact a | left; now apply Rinv_0_lt_compat] |]. subst y. unfold Rdiv. rewrite Rinv_0. lra.
Qed.
