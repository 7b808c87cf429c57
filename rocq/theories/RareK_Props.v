(** * Theorems: K -> pi nu nu (C180, C181) *)
From Coq Require Import Reals Lra Psatz.
From Coquelicot Require Import Coquelicot.
From Verif Require Import Base Basics_Model Basics_Proofs Angular_Model Decays_Model Rare_Model Rare_Spec Rare_Proofs.
Local Open Scope R_scope.

Definition k_ok (d : kpinunu) : Prop := 0 < q_alpha d /\ 0 < q_s2w d /\ 0 < q_Vus d.

Lemma amp_is (d : kpinunu) (i j : lep3) : k_ok d -> kpinunu_amplitude d i j = K_amplitude d i j.
Proof.
  intros (A & S & V). unfold kpinunu_amplitude, K_amplitude, CL_SM. cbv zeta. fold (charm d). unfold kpinunu_charm. fold (charm d).
  assert (E : forall x : C, (- (x + RtoC (- q_Xt d / q_s2w d * q_alphaZ d / q_alpha d) + q_CR d i j) * RtoC (q_s2w d) = RtoC (q_Xt d * (q_alphaZ d / q_alpha d)) - RtoC (q_s2w d) * (x + q_CR d i j))%C).
  { intros x. replace (q_Xt d * (q_alphaZ d / q_alpha d)) with (- (- q_Xt d / q_s2w d * q_alphaZ d / q_alpha d) * q_s2w d) by (field; lra).
    rewrite RtoC_mult, RtoC_opp. ring. }
  destruct i, j; cbn [lep3_eqb same]; rewrite ?E, ?Rmult_1_l, ?Rmult_0_l, ?RtoC_mult; change (379 / 1000 * Rpower (q_mc d / (13 / 10)) (2155 / 1000) * Rpower (q_alphas d / (1187 / 10000)) (- (1417 / 1000)) + q_dPcu d) with (charm d);
    ring.
Qed.
Lemma factor_is (d : kpinunu) (k x : R) : k_ok d -> x * kappa_nu_tilde d k / q_Vus d ^ 2 / 3 = K_factor d k * x.
Proof. intros (A & S & V). unfold kappa_nu_tilde, K_factor. cbv zeta. field. lra. Qed.
Lemma factor_ge (d : kpinunu) (k : R) : 0 <= k -> 0 <= K_factor d k.
Proof.
  intros K. unfold K_factor. replace (k / (225 / 1000) ^ 8 * (q_alpha d / (10 / 1279)) ^ 2 * (231 / 1000 / q_s2w d) ^ 2 / q_Vus d ^ 2 / 3)
    with (k * (/ (225 / 1000) ^ 8 / 3) * (q_alpha d / (10 / 1279)) ^ 2 * (231 / 1000 / q_s2w d) ^ 2 * (/ q_Vus d) ^ 2) by (unfold Rdiv; rewrite !Rpow_mult_distr, <- !pow_inv; ring).
  apply Rmult_le_pos; [| apply pow2_ge_0]. apply Rmult_le_pos; [| apply pow2_ge_0]. apply Rmult_le_pos; [| apply pow2_ge_0]. apply Rmult_le_pos; [exact K |].
  apply Rmult_le_pos; [| lra]. apply Rlt_le, Rinv_0_lt_compat. apply pow_lt. lra.
Qed.
(** ** C180 *)
(** the branching ratios: sum over all pairs of neutrinos, of the absolute square for the charged kaon, of the square of the imaginary part for the neutral one *)
Theorem C180_branching_ratios (d : kpinunu) : k_ok d ->
  br_kplus_pinunu_summed d = K_factor d (q_kplus d) * over_flavours (fun i => over_flavours (fun j => Cmod (K_amplitude d i j) ^ 2)) /\
  br_klong_pinunu_summed d = K_factor d (q_kL d) * over_flavours (fun i => over_flavours (fun j => Im (K_amplitude d i j) ^ 2)) /\
  (forall i j, br_kplus_pinunu d i j = K_factor d (q_kplus d) * Cmod (K_amplitude d i j) ^ 2 /\ br_klong_pinunu d i j = K_factor d (q_kL d) * Im (K_amplitude d i j) ^ 2).
Proof.
  intros ok.
  assert (P : forall i j, br_kplus_pinunu d i j = K_factor d (q_kplus d) * Cmod (K_amplitude d i j) ^ 2 /\ br_klong_pinunu d i j = K_factor d (q_kL d) * Im (K_amplitude d i j) ^ 2).
  { intros i j. unfold br_kplus_pinunu, br_klong_pinunu. rewrite (amp_is d i j ok), !factor_is by exact ok. split; reflexivity. }
  refine (conj _ (conj _ P)); unfold br_kplus_pinunu_summed, br_klong_pinunu_summed; rewrite sum_over; unfold over_flavours;
    [rewrite !(fun i j => proj1 (P i j)) | rewrite !(fun i j => proj2 (P i j))]; ring.
Qed.
Lemma over_le (f g : lep3 -> lep3 -> R) : (forall i j, f i j <= g i j) -> over_flavours (fun i => over_flavours (f i)) <= over_flavours (fun i => over_flavours (g i)).
Proof. intros L. unfold over_flavours. repeat apply Rplus_le_compat; apply L. Qed.
Lemma over_ge (f : lep3 -> lep3 -> R) : (forall i j, 0 <= f i j) -> 0 <= over_flavours (fun i => over_flavours (f i)).
Proof. intros L. unfold over_flavours. repeat apply Rplus_le_le_0_compat; apply L. Qed.
Lemma im_le (z : C) : Im z ^ 2 <= Cmod z ^ 2.
Proof. rewrite cmod_sq. unfold Im. pose proof (pow2_ge_0 (fst z)). lra. Qed.
(** they are not negative, and the Grossman-Nir bound relates them, whatever the new physics *)
Theorem C180_grossman_nir (d : kpinunu) : k_ok d -> 0 <= q_kplus d -> 0 <= q_kL d ->
  0 <= br_kplus_pinunu_summed d /\ 0 <= br_klong_pinunu_summed d /\
  br_klong_pinunu_summed d * q_kplus d <= br_kplus_pinunu_summed d * q_kL d /\
  (0 < q_kplus d -> br_klong_pinunu_summed d <= q_kL d / q_kplus d * br_kplus_pinunu_summed d).
Proof.
  intros ok kp kl. destruct (C180_branching_ratios d ok) as (-> & -> & _).
  set (A := over_flavours _). set (B := over_flavours (fun i => over_flavours (fun j => Im (K_amplitude d i j) ^ 2))).
  assert (a : 0 <= A) by (apply over_ge; intros; apply pow2_ge_0). assert (b : 0 <= B) by (apply over_ge; intros; apply pow2_ge_0).
  assert (L : B <= A) by (apply over_le; intros; apply im_le).
  assert (F : K_factor d (q_kL d) * q_kplus d = K_factor d (q_kplus d) * q_kL d) by (unfold K_factor, Rdiv; ring).
  assert (G : K_factor d (q_kL d) * B * q_kplus d <= K_factor d (q_kplus d) * A * q_kL d).
  { replace (K_factor d (q_kL d) * B * q_kplus d) with (K_factor d (q_kL d) * q_kplus d * B) by ring. rewrite F.
    replace (K_factor d (q_kplus d) * A * q_kL d) with (K_factor d (q_kplus d) * q_kL d * A) by ring.
    apply Rmult_le_compat_l; [| exact L]. apply Rmult_le_pos; [now apply factor_ge | exact kl]. }
  refine (conj _ (conj _ (conj G _))); [apply Rmult_le_pos; [now apply factor_ge | exact a] | apply Rmult_le_pos; [now apply factor_ge | exact b] |].
  intros P. apply (Rmult_le_reg_r (q_kplus d)); [exact P |]. replace (q_kL d / q_kplus d * (K_factor d (q_kplus d) * A) * q_kplus d) with (K_factor d (q_kplus d) * A * q_kL d) by (field; lra). exact G.
Qed.
(** only the sums of left- and right-handed coefficients enter *)
Theorem C180_only_sum (d : kpinunu) (CL CR CL' CR' : lep3 -> lep3 -> C) : k_ok d -> (forall i j, CL i j + CR i j = CL' i j + CR' i j)%C ->
  br_kplus_pinunu_summed (with_np_K d CL CR) = br_kplus_pinunu_summed (with_np_K d CL' CR') /\ br_klong_pinunu_summed (with_np_K d CL CR) = br_klong_pinunu_summed (with_np_K d CL' CR').
Proof.
  intros ok E. destruct (C180_branching_ratios (with_np_K d CL CR) ok) as (-> & -> & _). destruct (C180_branching_ratios (with_np_K d CL' CR') ok) as (-> & -> & _).
  assert (A : forall i j, K_amplitude (with_np_K d CL CR) i j = K_amplitude (with_np_K d CL' CR') i j).
  { intros i j. unfold K_amplitude. cbn [q_xit q_Xt q_alphaZ q_alpha q_s2w q_CL q_CR q_Vus q_xic with_np_K]. rewrite E. reflexivity. }
  unfold over_flavours. rewrite !A. split; reflexivity.
Qed.
(** without CP violation (real CKM factors and coefficients) the long-lived kaon does not decay *)
Theorem C180_cp_conserved (d : kpinunu) : k_ok d -> Im (q_xit d) = 0 -> Im (q_xic d) = 0 -> (forall i j, Im (q_CL d i j + q_CR d i j)%C = 0) -> br_klong_pinunu_summed d = 0.
Proof.
  intros ok t c n. destruct (C180_branching_ratios d ok) as (_ & -> & _).
  assert (A : forall i j, Im (K_amplitude d i j) = 0).
  { intros i j. specialize (n i j). unfold K_amplitude, Im in *. destruct (q_xit d) as [t1 t2], (q_xic d) as [c1 c2], (q_CL d i j) as [l1 l2], (q_CR d i j) as [r1 r2].
    cbn [fst snd Cplus Cminus Copp Cmult RtoC] in *. rewrite t, c. replace r2 with (- l2) by lra. ring. }
  unfold over_flavours. rewrite !A. ring.
Qed.
(** flavour-violating coefficients do not interfere with the Standard Model: they only add *)
Theorem C180_flavour_violation_adds (d : kpinunu) (CL CR : lep3 -> lep3 -> C) : k_ok d -> 0 <= q_kplus d -> 0 <= q_kL d ->
  let conserving (f : lep3 -> lep3 -> C) := fun i j => (RtoC (same i j) * f i j)%C in
  let all := with_np_K d CL CR in let cons := with_np_K d (conserving CL) (conserving CR) in
  br_kplus_pinunu_summed cons <= br_kplus_pinunu_summed all /\ br_klong_pinunu_summed cons <= br_klong_pinunu_summed all.
Proof.
  intros ok kp kl conserving all cons. destruct (C180_branching_ratios all ok) as (-> & -> & _). destruct (C180_branching_ratios cons ok) as (-> & -> & _).
  change (K_factor cons) with (K_factor d). change (K_factor all) with (K_factor d). cbn [q_kplus q_kL with_np_K all cons].
  assert (A : forall i j, K_amplitude cons i j = K_amplitude all i j \/ K_amplitude cons i j = RtoC 0).
  { intros i j. unfold K_amplitude. cbn [q_xit q_Xt q_alphaZ q_alpha q_s2w q_CL q_CR q_Vus q_xic with_np_K all cons]. unfold conserving.
    destruct i, j; cbn [same]; first [left; rewrite !Rmult_1_l; change (charm cons) with (charm all); ring | right; rewrite !Rmult_0_l; ring]. }
  assert (z : Im (RtoC 0) = 0) by reflexivity.
  split; (apply Rmult_le_compat_l; [now apply factor_ge |]); apply over_le; intros i j; destruct (A i j) as [-> | ->]; try apply Rle_refl.
  - rewrite Cmod_0. replace (0 ^ 2) with 0 by ring. apply pow2_ge_0.
  - rewrite z. replace (0 ^ 2) with 0 by ring. apply pow2_ge_0.
Qed.

(** ** C181: with no new physics the prediction should not depend on the scale at which alpha_e is taken; the top-quark contribution does not, the charm
    contribution does: the amplitude contains alpha_e(m_Z)/alpha_e(scale) for top quarks only, the prefactor alpha_e(scale)^2 multiplies both *)
Theorem C181_refuted : ~ (forall d a, k_ok d -> 0 < q_kplus d -> no_np d -> 0 < a -> br_kplus_pinunu_summed (with_alpha_K d a) = br_kplus_pinunu_summed d).
Proof.
  intros H.
  set (d := KPiNuNu (RtoC 0) (RtoC 1) 1 1 1 1 1 (13 / 10) (1187 / 10000) 0 1 1 (fun _ _ => RtoC 0) (fun _ _ => RtoC 0)).
  assert (ok : k_ok d) by (unfold k_ok, d; cbn; lra).
  specialize (H d 2 ok ltac:(cbn; lra) ltac:(intros i j; split; reflexivity) ltac:(lra)).
  assert (ok2 : k_ok (with_alpha_K d 2)) by (unfold k_ok, d; cbn; lra).
  destruct (C180_branching_ratios _ ok) as (E1 & _). destruct (C180_branching_ratios _ ok2) as (E2 & _). rewrite E1, E2 in H. clear E1 E2.
  assert (A : forall i j, K_amplitude (with_alpha_K d 2) i j = K_amplitude d i j). { intros i j. unfold K_amplitude, d. cbn [q_xit q_Xt q_alphaZ q_alpha q_s2w q_CL q_CR q_Vus q_xic with_alpha_K]. change (charm (with_alpha_K _ 2)) with (charm d). unfold d. ring. }
  assert (X : Cmod (K_amplitude d Le Le) ^ 2 = (379 / 1000) ^ 2).
  { assert (Z : K_amplitude d Le Le = RtoC (379 / 1000)).
    { unfold K_amplitude, charm, d. cbn [q_xit q_Xt q_alphaZ q_alpha q_s2w q_CL q_CR q_Vus q_xic q_mc q_alphas q_dPcu same].
      replace (13 / 10 / (13 / 10)) with 1 by lra. replace (1187 / 10000 / (1187 / 10000)) with 1 by lra. unfold Rpower. rewrite ln_1, !Rmult_0_r, exp_0.
      apply injective_projections; cbn; field. }
    rewrite Z, Cmod_R, Rabs_pos_eq by lra. reflexivity. }
  set (S := over_flavours (fun i => over_flavours (fun j => Cmod (K_amplitude d i j) ^ 2))) in H.
  assert (SP : 0 < S).
  { unfold S, over_flavours. rewrite X. pose proof (fun i j => pow2_ge_0 (Cmod (K_amplitude d i j))) as g.
    pose proof (g Le Lmu). pose proof (g Le Ltau). pose proof (g Lmu Le). pose proof (g Lmu Lmu). pose proof (g Lmu Ltau). pose proof (g Ltau Le). pose proof (g Ltau Lmu). pose proof (g Ltau Ltau).
    assert (0 < (379 / 1000) ^ 2) by lra. lra. }
  assert (S2 : over_flavours (fun i => over_flavours (fun j => Cmod (K_amplitude (with_alpha_K d 2) i j) ^ 2)) = S) by (unfold S, over_flavours; rewrite !A; reflexivity).
  rewrite S2 in H. clear A X S2. clearbody S.
  assert (F : K_factor (with_alpha_K d 2) (q_kplus (with_alpha_K d 2)) = 4 * K_factor d (q_kplus d)) by (unfold K_factor, d; cbn [q_alpha q_s2w q_Vus q_kplus with_alpha_K]; field).
  assert (P : 0 < K_factor d (q_kplus d)). { unfold K_factor, d. cbn [q_alpha q_s2w q_Vus q_kplus]. lra. }
  rewrite F in H. assert (0 < K_factor d (q_kplus d) * S) by (apply Rmult_lt_0_compat; assumption). lra.
Qed.
(** without the charm contribution it does not *)
Theorem C181_top_partial (d : kpinunu) (a : R) : k_ok d -> no_np d -> 0 < a -> charm d = 0 ->
  br_kplus_pinunu_summed (with_alpha_K d a) = br_kplus_pinunu_summed d /\ br_klong_pinunu_summed (with_alpha_K d a) = br_klong_pinunu_summed d.
Proof.
  intros ok n A c. pose proof ok as (P & S & V). assert (ok2 : k_ok (with_alpha_K d a)) by (unfold k_ok; cbn; lra).
  destruct (C180_branching_ratios _ ok) as (-> & -> & _). destruct (C180_branching_ratios _ ok2) as (-> & -> & _).
  assert (X : forall i j, K_amplitude (with_alpha_K d a) i j = (RtoC (q_alpha d / a) * K_amplitude d i j)%C).
  { intros i j. unfold K_amplitude. cbn [q_xit q_Xt q_alphaZ q_alpha q_s2w q_CL q_CR q_Vus q_xic with_alpha_K]. change (charm (with_alpha_K d a)) with (charm d). rewrite c.
    destruct (n i j) as (-> & ->). replace (q_Xt d * (q_alphaZ d / a)) with (q_alpha d / a * (q_Xt d * (q_alphaZ d / q_alpha d))) by (field; lra).
    rewrite Rmult_0_r, Rmult_0_l, !RtoC_mult. ring. }
  assert (Y : forall z : C, Im (RtoC (q_alpha d / a) * z)%C ^ 2 = (q_alpha d / a) ^ 2 * Im z ^ 2) by (intros [x y]; unfold Im; cbn [fst snd Cmult RtoC]; ring).
  unfold over_flavours. rewrite !X, !sq_scale, !Y. unfold K_factor. cbn [q_alpha q_s2w q_Vus q_kplus q_kL with_alpha_K]. split; field; repeat split; lra.
Qed.

Print Assumptions C180_branching_ratios.
Print Assumptions C180_grossman_nir.
Print Assumptions C180_only_sum.
Print Assumptions C180_cp_conserved.
Print Assumptions C180_flavour_violation_adds.
Print Assumptions C181_refuted.
Print Assumptions C181_top_partial.

(** the hypotheses are met: Standard-Model-like parameters, and parameters without a charm contribution *)
Example ex_K : let d := KPiNuNu (- (3 / 10000), 13 / 100000) (RtoC (- (22 / 100))) (225 / 1000) (231 / 1000) (148 / 100) (1 / 128) (1 / 128) (13 / 10) (1187 / 10000) (4 / 100) (517 / 10 ^ 13) (223 / 10 ^ 12) (fun _ _ => RtoC 0) (fun _ _ => RtoC 0) in
  k_ok d /\ 0 < q_kplus d /\ 0 < q_kL d /\ no_np d.
Proof. cbv zeta. unfold k_ok, no_np. cbn [q_alpha q_s2w q_Vus q_kplus q_kL q_CL q_CR]. refine (conj _ (conj _ (conj _ _))); try lra. intros i j. split; reflexivity. Qed.
Example ex_K0 : let d := KPiNuNu (RtoC 1) (RtoC 1) 1 1 1 1 1 (13 / 10) (1187 / 10000) (- (379 / 1000)) 1 1 (fun _ _ => RtoC 0) (fun _ _ => RtoC 0) in k_ok d /\ no_np d /\ charm d = 0.
Proof.
  cbv zeta. unfold k_ok, no_np, charm. cbn [q_alpha q_s2w q_Vus q_mc q_alphas q_dPcu q_CL q_CR].
  refine (conj _ (conj _ _)); [lra | intros i j; split; reflexivity |].
  replace (13 / 10 / (13 / 10)) with 1 by lra. replace (1187 / 10000 / (1187 / 10000)) with 1 by lra. unfold Rpower. rewrite ln_1, !Rmult_0_r, exp_0. ring.
Qed.
