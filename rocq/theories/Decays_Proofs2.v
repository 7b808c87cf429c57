(** * Proofs for the decay observables: the angular coefficients are integrable functions of q2 *)
From Coq Require Import Reals Lra.
From Coquelicot Require Import Coquelicot.
From Verif Require Import Base Basics_Model Basics_Proofs Angular_Model Angular_Spec Angular_Proofs Angular_Proofs2 Angular_Proofs3 Angular_Proofs4 Angular_Proofs5 Angular_Proofs6 Decays_Model Decays_Proofs.
Local Open Scope R_scope.

Lemma den_ne (mB x : R) : 0 < mB -> 0 < x -> 512 * PI ^ 3 * mB ^ 3 * x <> 0.
Proof.
  intros HB Hx. pose proof PI_RGT_0 as P. apply Rgt_not_eq. apply Rmult_lt_0_compat; [| exact Hx]. apply Rmult_lt_0_compat; [apply Rmult_lt_0_compat; [lra |] |]; apply pow_lt; lra.
Qed.
Lemma sqrt_ne (x : R) : 0 < x -> sqrt x <> 0. Proof. intros Hx. apply Rgt_not_eq, sqrt_lt_R0, Hx. Qed.
Lemma rc_norm (mB mV m1 m2 x : R) : 0 < mB -> 0 < x -> rc (fun t => normalisation t mB mV m1 m2) x.
Proof. intros HB Hx. unfold normalisation, triangle. repeat cstep. now apply den_ne. Qed.
Section Kin.
  Variables (m1 m2 x : R).
  Hypothesis Hx : 0 < x.
  Lemma rc_energy (m m' : R) : rc (fun t => energy t m m') x.
  Proof. unfold energy. repeat cstep. apply Rmult_integral_contrapositive_currified; [lra | now apply sqrt_ne]. Qed.
  Lemma rc_roots : rc (fun t => vT t m1 m2) x /\ rc (fun t => vL t m1 m2) x /\ rc (fun t => aT_ t m1 m2) x /\ rc (fun t => aL t m1 m2) x.
  Proof.
    unfold vT, vL, aT_, aL, u1, u2, w1, w2. refine (conj _ (conj _ (conj _ _))); repeat (lazymatch goal with |- rc (fun t => energy t _ _) x => apply rc_energy | _ => cstep end).
  Qed.
End Kin.
Section J.
  Variables (H : R -> amps) (m1 m2 x : R).
  Hypotheses (Hx : 0 < x) (Hc : amps_cont H x).
  Ltac leaf a b c e cV cA cP cS cT cTt := lazymatch goal with
    | |- rc (fun t => vT t _ _) x => exact a | |- rc (fun t => vL t _ _) x => exact b | |- rc (fun t => aT_ t _ _) x => exact c | |- rc (fun t => aL t _ _) x => exact e
    | |- cc (fun t => aV (H t) ?l) x => exact (cV l) | |- cc (fun t => aA (H t) ?l) x => exact (cA l)
    | |- cc (fun t => aT (H t) ?l) x => exact (cT l) | |- cc (fun t => aTt (H t) ?l) x => exact (cTt l)
    | |- cc (fun t => aP (H t)) x => exact cP | |- cc (fun t => aS (H t)) x => exact cS
    | _ => cstep end.
  Lemma cc_flip (s : R) (l : hel) : cc (fun t => flip t m1 m2 (H t) s l) x.
  Proof. destruct (rc_roots m1 m2 x Hx) as (a & b & c & e). destruct Hc as (cV & cA & cP & cS & cT & cTt). unfold flip. repeat leaf a b c e cV cA cP cS cT cTt. Qed.
  Lemma cc_same_v (l : hel) : cc (fun t => same_v t m1 m2 (H t) l) x.
  Proof. destruct (rc_roots m1 m2 x Hx) as (a & b & c & e). destruct Hc as (cV & cA & cP & cS & cT & cTt). unfold same_v. repeat leaf a b c e cV cA cP cS cT cTt. Qed.
  Lemma cc_same_a (l : hel) : cc (fun t => same_a t m1 m2 (H t) l) x.
  Proof. destruct (rc_roots m1 m2 x Hx) as (a & b & c & e). destruct Hc as (cV & cA & cP & cS & cT & cTt). unfold same_a. repeat leaf a b c e cV cA cP cS cT cTt. Qed.
  Lemma cc_scalar : cc (fun t => scalar t m1 m2 (H t)) x.
  Proof. destruct (rc_roots m1 m2 x Hx) as (a & b & c & e). destruct Hc as (cV & cA & cP & cS & cT & cTt). unfold scalar. repeat leaf a b c e cV cA cP cS cT cTt. Qed.
  Lemma cc_pseudo : cc (fun t => pseudo t m1 m2 (H t)) x.
  Proof. destruct (rc_roots m1 m2 x Hx) as (a & b & c & e). destruct Hc as (cV & cA & cP & cS & cT & cTt). unfold pseudo. repeat leaf a b c e cV cA cP cS cT cTt. Qed.
End J.
Lemma rc_coeff (fp fm n m : R -> hel -> C) (S P : R -> C) (k : jkey) (x : R) :
  (forall l, cc (fun t => fp t l) x) -> (forall l, cc (fun t => fm t l) x) -> (forall l, cc (fun t => n t l) x) -> (forall l, cc (fun t => m t l) x) -> cc S x -> cc P x ->
  rc (fun t => coeff_of (fp t) (fm t) (n t) (m t) (S t) (P t) k) x.
Proof.
  intros c1 c2 c3 c4 c5 c6. destruct k; cbn [coeff_of]; unfold bil;
  repeat (lazymatch goal with
    | |- cc (fun t => fp t _) x => apply c1 | |- cc (fun t => fm t _) x => apply c2 | |- cc (fun t => n t _) x => apply c3 | |- cc (fun t => m t _) x => apply c4
    | |- cc (fun t => S t) x => exact c5 | |- cc (fun t => P t) x => exact c6 | |- cc S x => exact c5 | |- cc P x => exact c6 | _ => cstep end); try lra.
Qed.
(** the coefficients are integrable over physical values if the amplitudes are continuous *)
Lemma J_int (H : R -> amps) (mB mV m1 m2 : R) (lo hi : R) (k : jkey) : 0 < mB -> 0 < lo <= hi -> 0 <= m1 -> 0 <= m2 -> (m1 + m2) ^ 2 <= lo ->
  (forall x, lo <= x <= hi -> amps_cont H x) -> int (fun t => angularcoeffs_general_v (H t) t mB mV m1 m2 k) lo hi.
Proof.
  intros HB (L0 & L) M1 M2 T C.
  apply (int_ext (fun t => 16 / 3 * normalisation t mB mV m1 m2 *
    coeff_of (flip t m1 m2 (H t) 1) (flip t m1 m2 (H t) (-1)) (same_v t m1 m2 (H t)) (same_a t m1 m2 (H t)) (scalar t m1 m2 (H t)) (pseudo t m1 m2 (H t)) k)); [exact L | |].
  - intros x X. symmetry. apply coefficients. unfold physical. lra.
  - apply int_cont; [exact L |]. intros x X. assert (X0 : 0 < x) by lra.
    apply (rc_mult x (fun t => 16 / 3 * normalisation t mB mV m1 m2)); [apply rc_mult; [apply rc_const | now apply rc_norm] |].
    specialize (C x X). apply (rc_coeff (fun t => flip t m1 m2 (H t) 1) (fun t => flip t m1 m2 (H t) (-1)) (fun t => same_v t m1 m2 (H t)) (fun t => same_a t m1 m2 (H t))
      (fun t => scalar t m1 m2 (H t)) (fun t => pseudo t m1 m2 (H t)) k x).
    + intros l. exact (cc_flip H m1 m2 x X0 C 1 l).
    + intros l. exact (cc_flip H m1 m2 x X0 C (-1) l).
    + intros l. exact (cc_same_v H m1 m2 x X0 C l).
    + intros l. exact (cc_same_a H m1 m2 x X0 C l).
    + exact (cc_scalar H m1 m2 x X0 C).
    + exact (cc_pseudo H m1 m2 x X0 C).
Qed.
Section JP.
  Variables (h : R -> pamps) (mB mP m1 m2 x : R).
  Hypotheses (HB : 0 < mB) (Hx : 0 < x) (Hc : pamps_cont h x).
  Lemma Jp_cont : let J t := angularcoeffs_general_p (h t) t mB mP m1 m2 in rc (fun t => Ja (J t)) x /\ rc (fun t => Jb (J t)) x /\ rc (fun t => Jc (J t)) x.
  Proof using HB Hx Hc.
    destruct Hc as (cV & cA & cP & cS & cT & cTt). pose proof (den_ne mB x HB Hx) as D. pose proof (sqrt_ne x Hx) as S.
    assert (D' : 2 ^ 9 * PI ^ 3 * mB ^ 3 * x <> 0) by (replace (2 ^ 9) with 512 by ring; exact D).
    unfold angularcoeffs_general_p, angularcoeffs_general_Gbasis_p, phase_space. cbv zeta. cbn [Ja Jb Jc Gp0 Gp1 Gp2].
    refine (conj _ (conj _ _)); repeat (lazymatch goal with
     | |- cc (fun t => pV (h t)) x => exact cV | |- cc (fun t => pA (h t)) x => exact cA | |- cc (fun t => pP (h t)) x => exact cS | |- cc (fun t => pS (h t)) x => exact cP
     | |- cc (fun t => pT (h t)) x => exact cT | |- cc (fun t => pTt (h t)) x => exact cTt | _ => cstep end); first [exact D' | exact S | lra].
  Qed.
End JP.
Section Amps.
  Variables (ff : R -> ffkey -> R) (mB mV mqh mql m1 m2 x : R) (wc : wckey -> C) (pre : C).
  Hypotheses (HB : 0 < mB) (HV : 0 <= mV) (Hx : 0 < x) (Hf : forall k, rc (fun t => ff t k) x).
  Lemma const_div (z w : C) : cc (fun _ => (z / w)%C) x. Proof. apply cc_const. Qed.
  Lemma amps_v_cont : amps_cont (fun t => helicity_amps_v t mB mV mqh mql m1 m2 (ff t) wc pre) x.
  Proof using HB HV Hx Hf.
    pose proof (sqrt_ne x Hx) as S. assert (S2 : sqrt 2 * sqrt x <> 0) by (apply Rmult_integral_contrapositive_currified; [apply sqrt_ne; lra | exact S]).
    assert (S3 : sqrt x * (mB + mV) <> 0) by (apply Rmult_integral_contrapositive_currified; [exact S | lra]).
    unfold amps_cont, helicity_amps_v. cbv zeta. cbn [aV aA aP aS aT aTt].
    refine (conj _ (conj _ (conj _ (conj _ (conj _ _))))); try (intros l; destruct l);
    repeat (lazymatch goal with |- rc (fun t => ff t _) x => apply Hf | _ => cstep end); try first [exact S | exact S2 | exact S3 | lra].
  Qed.
  Lemma amps_p_cont : mB <> 0 -> pamps_cont (fun t => helicity_amps_p t mB mV mqh mql m1 m2 (ff t) wc pre) x.
  Proof using HB HV Hx Hf.
    intros _. pose proof (sqrt_ne x Hx) as S. 
    unfold pamps_cont, helicity_amps_p. cbv zeta. cbn [pV pA pP pS pT pTt].
    refine (conj _ (conj _ (conj _ (conj _ (conj _ _)))));
    repeat (lazymatch goal with |- rc (fun t => ff t _) x => apply Hf | _ => cstep end); try first [exact S | lra].
  Qed.
End Amps.
