(** * Theorems about leptonic decays: C142-C146 *)
From Coq Require Import Reals Lra List.
From Coquelicot Require Import Coquelicot.
From Verif Require Import Base Basics_Model Basics_Spec Basics_Proofs Angular_Proofs3 Decays_Model Decays_Spec Leptonic_Model Leptonic_Spec Leptonic_Proofs.
Import ListNotations.
Local Open Scope R_scope.

(** ** C142: B -> l l *)
Definition strength (d : bqll) (l : lep3) : R := Cmod (ampP d l) ^ 2 + Cmod (ampS d l) ^ 2.
Lemma bound_D (P S : C) : Rabs (fst (P * P)%C - fst (S * S)%C) <= Cmod P ^ 2 + Cmod S ^ 2.
Proof.
  rewrite !cmod_sq. destruct P as [a b], S as [c e]. unfold Cmult. cbn [fst snd]. apply Rabs_le.
  assert (0 <= a ^ 2 /\ 0 <= b ^ 2 /\ 0 <= c ^ 2 /\ 0 <= e ^ 2) by (repeat split; apply pow2_ge_0). lra.
Qed.
Section C142.
  Variable d : bqll.
  Variable l : lep3.
  Hypothesis A : allowed2 d l l.
  Let N := strength d l.
  Let D := fst (ampP d l * ampP d l)%C - fst (ampS d l * ampS d l)%C.
  Let y := ydiff d.
  Lemma ADG_is : ADG_func d l = D / N.
  Proof using A. unfold ADG_func, ADeltaGamma. rewrite equal_amps by exact A. reflexivity. Qed.
  Lemma inst_equal : bqll_inst d l l = scale2 d l * N.
  Proof using A.
    unfold bqll_inst. pose proof (inst_is d (wc_of d l l) l l) as E. rewrite equal_amps in E by exact A. destruct A as (B & p1 & p2 & L & _). exact (E B p1 p2 L).
  Qed.
  Lemma ADG_range : 0 < N -> -1 <= D / N <= 1.
  Proof using.
    intros P. pose proof (bound_D (ampP d l) (ampS d l)) as H. fold D in H. apply Rabs_le_between in H. fold (strength d l) in H. fold N in H.
    split; apply (Rmult_le_reg_r N); try exact P; unfold Rdiv; rewrite Rmult_assoc, Rinv_l by lra; lra.
  Qed.
  Hypothesis Y : -1 < y < 1.
  Lemma weight_pos : 0 < N -> 0 < 1 + D / N * y.
  Proof using Y. intros P. destruct (ADG_range P) as [r1 r2]. set (a := D / N) in *. destruct (Rle_dec 0 y) as [h | h]; [assert (0 <= (a + 1) * y) by (apply Rmult_le_pos; lra) | assert (0 <= (1 - a) * (- y)) by (apply Rmult_le_pos; lra)]; lra. Qed.
  Lemma timeint_is : 0 < N -> bqll_timeint d l l = Ok (scale2 d l * ((N + D * y) / (1 - y ^ 2))).
  Proof using A Y.
    intros P. unfold bqll_timeint, br_timeint. replace (lep3_eqb l l) with true by (destruct l; reflexivity). cbn [negb]. cbv zeta. f_equal.
    change (br_inst d (wc_of d l l) l l) with (bqll_inst d l l). change (ADeltaGamma d (wc_of d l l) l) with (ADG_func d l). rewrite inst_equal, ADG_is.
    unfold br_lifetime_corr. change (ll_dGoG d / 2) with y. pose proof (weight_pos P) as W. assert (1 - y ^ 2 <> 0) by nra.
    assert (N + D * y <> 0) by (intros z; assert (H' : N * (1 + D / N * y) = 0) by (transitivity (N + D * y); [field; lra | exact z]); apply Rmult_integral in H'; lra).
    field. repeat split; lra.
  Qed.
  Lemma tau_is : 0 < N -> tau_ll_func d l = ll_tau d * (((N * (1 + y ^ 2) + 2 * D * y) / (1 - y ^ 2) ^ 2) / ((N + D * y) / (1 - y ^ 2))).
  Proof using A Y.
    intros P. unfold tau_ll_func, tau_ll. change (ADeltaGamma d (wc_of d l l) l) with (ADG_func d l). rewrite ADG_is. cbv zeta.
    replace (1 / 2 * ll_dGoG d) with y by (unfold y, ydiff; field). pose proof (weight_pos P) as W.
    assert (1 - y ^ 2 <> 0) by nra. assert (-1 + y ^ 2 <> 0) by nra. 
    assert (N + D * y <> 0) by (intros z; assert (H' : N * (1 + D / N * y) = 0) by (transitivity (N + D * y); [field; lra | exact z]); apply Rmult_integral in H'; lra).
    field. repeat split; first [assumption | lra | intros z; lra].
  Qed.
End C142.

(** the instantaneous branching ratio is the lifetime times phase space times the squared matrix element of the axial and vector
    currents and of the densities, for all lepton flavours *)
Theorem C142_rate_formula (d : bqll) (l1 l2 : lep3) : allowed2 d l1 l2 ->
  bqll_inst d l1 l2 = ll_tau d * (phase_space (ll_mB d) (ll_m d l1) (ll_m d l2) * squared d l1 l2) /\ 0 <= bqll_inst d l1 l2.
Proof.
  intros A. rewrite rate_formula by exact A. split; [reflexivity |]. destruct A as (B & p1 & p2 & L & _ & _ & T).
  apply Rmult_le_pos; [lra |]. unfold phase_space, squared, pseudo_line, scalar_line, dot. pose proof PI_RGT_0.
  apply Rmult_le_pos.
  - apply Rmult_le_pos; [apply sqrt_pos | left; apply Rinv_0_lt_compat]. apply Rmult_lt_0_compat; [lra | apply pow_lt; exact B].
  - apply Rmult_le_pos; [apply pow2_ge_0 |]. apply Rplus_le_le_0_compat; apply Rmult_le_pos; try apply pow2_ge_0; nra.
Qed.
Print Assumptions C142_rate_formula.

(** the published branching ratio of B_s -> l l counts all decays of an untagged sample, whatever the oscillation frequency and mixing phase *)
Theorem C142_time_integrated (d : bqll) (l : lep3) (u : C) (x : R) : allowed2 d l l -> 0 < strength d l -> -1 < ydiff d < 1 -> Cmod u = 1 ->
  untagged u x (ydiff d) (ampP d l) (ampS d l) 0 = strength d l /\ bqll_inst d l l = scale2 d l * strength d l /\
  exists L, all_decays u x (ydiff d) (ampP d l) (ampS d l) L /\ bqll_timeint d l l = Ok (scale2 d l * L).
Proof.
  intros A P Y U. refine (conj _ (conj (inst_equal d l A) _)).
  - rewrite untagged_is by exact U. rewrite !Rmult_0_r, exp_0. unfold strength. field.
  - eexists. split; [exact (all_is_ u x (ydiff d) (ampP d l) (ampS d l) U Y) | exact (timeint_is d l A Y P)].
Qed.
Print Assumptions C142_time_integrated.

(** the effective lifetime is the mean decay time of that sample *)
Theorem C142_effective_lifetime (d : bqll) (l : lep3) (u : C) (x : R) : allowed2 d l l -> 0 < strength d l -> -1 < ydiff d < 1 -> Cmod u = 1 ->
  exists L L1, all_decays u x (ydiff d) (ampP d l) (ampS d l) L /\ all_times u x (ydiff d) (ampP d l) (ampS d l) L1 /\ 0 < L /\
    tau_ll_func d l = ll_tau d * (L1 / L).
Proof.
  intros A P Y U. eexists. eexists. refine (conj (all_is_ u x (ydiff d) (ampP d l) (ampS d l) U Y) (conj (times_is u x (ydiff d) (ampP d l) (ampS d l) U Y) (conj _ (tau_is d l A Y P)))).
  pose proof (weight_pos d l Y P) as W. assert (0 < 1 - ydiff d ^ 2) by nra. unfold strength in W, P.
  set (N := Cmod _ ^ 2 + _) in *. set (D := fst (ampP d l * ampP d l)%C - fst (ampS d l * ampS d l)%C) in *. apply Rmult_lt_0_compat; [| now apply Rinv_0_lt_compat].
  replace (N + D * ydiff d) with (N * (1 + D / N * ydiff d)) by (field; lra). now apply Rmult_lt_0_compat.
Qed.
Print Assumptions C142_effective_lifetime.

(** ranges *)
Theorem C142_ranges (d : bqll) (l : lep3) : allowed2 d l l -> 0 < strength d l -> -1 < ydiff d < 1 ->
  -1 <= ADG_func d l <= 1 /\
  ll_tau d / (1 + Rabs (ydiff d)) <= tau_ll_func d l <= ll_tau d / (1 - Rabs (ydiff d)) /\
  exists v, bqll_timeint d l l = Ok v /\ bqll_inst d l l / (1 + Rabs (ydiff d)) <= v <= bqll_inst d l l / (1 - Rabs (ydiff d)).
Proof.
  intros A P Y. assert (AT := A). destruct AT as (_ & _ & _ & _ & _ & _ & T). pose proof (ADG_range d l P) as R.
  pose proof (tau_is d l A Y P) as ET. pose proof (timeint_is d l A Y P) as EB. pose proof (inst_equal d l A) as EI. pose proof (proj2 (C142_rate_formula d l l A)) as I0.
  rewrite (ADG_is d l A). refine (conj R _). pose proof (weight_pos d l Y P) as W.
  set (y := ydiff d) in *. set (N := strength d l) in *. set (D := fst (ampP d l * ampP d l)%C - fst (ampS d l * ampS d l)%C) in *. set (a := D / N) in *.
  assert (ED : D = N * a) by (unfold a; field; lra). assert (Y2 : 0 < 1 - y ^ 2) by nra.
  assert (ay : 0 <= Rabs y < 1) by (split; [apply Rabs_pos | apply Rabs_def1; lra]).
  assert (NZ : 0 < N * (1 + a * y)) by (apply Rmult_lt_0_compat; lra).
  assert (E1 : tau_ll_func d l = ll_tau d * ((1 + y ^ 2 + 2 * a * y) / ((1 - y ^ 2) * (1 + a * y)))) by (rewrite ET, ED; field; repeat split; lra).
  assert (E2 : (N + D * y) / (1 - y ^ 2) = N * ((1 + a * y) / (1 - y ^ 2))) by (rewrite ED; field; lra).
  assert (Q : forall s, s = Rabs y -> 1 / (1 + s) <= (1 + a * y) / (1 - y ^ 2) <= 1 / (1 - s)).
  { intros s Hs. assert (S2 : y ^ 2 = s ^ 2) by (rewrite Hs; symmetry; apply pow2_abs). assert (sb : 0 <= s < 1) by (rewrite Hs; exact ay).
    assert (ab : - s <= a * y <= s). { rewrite Hs. apply Rabs_le_between. rewrite Rabs_mult. assert (Rabs a <= 1) by (apply Rabs_le; exact R). pose proof (Rabs_pos y). nra. }
    rewrite S2. replace (1 / (1 + s)) with ((1 - s) / (1 - s ^ 2)) by (field; split; nra). replace (1 / (1 - s)) with ((1 + s) / (1 - s ^ 2)) by (field; split; nra).
    assert (0 < / (1 - s ^ 2)) by (apply Rinv_0_lt_compat; nra). split; apply Rmult_le_compat_r; lra. }
  assert (Q' : forall s, s = Rabs y -> 1 / (1 + s) <= (1 + y ^ 2 + 2 * a * y) / ((1 - y ^ 2) * (1 + a * y)) <= 1 / (1 - s)).
  { intros s Hs. assert (S2 : y ^ 2 = s ^ 2) by (rewrite Hs; symmetry; apply pow2_abs). assert (sb : 0 <= s < 1) by (rewrite Hs; exact ay).
    assert (ab : - s <= a * y <= s). { rewrite Hs. apply Rabs_le_between. rewrite Rabs_mult. assert (Rabs a <= 1) by (apply Rabs_le; exact R). pose proof (Rabs_pos y). nra. }
    rewrite S2. set (b := a * y) in *. replace (2 * a * y) with (2 * b) by (unfold b; ring). assert (0 < (1 - s ^ 2) * (1 + b)) by (apply Rmult_lt_0_compat; nra).
    assert (0 < / ((1 - s ^ 2) * (1 + b))) by now apply Rinv_0_lt_compat.
    replace (1 / (1 + s)) with ((1 - s) * (1 + b) / ((1 - s ^ 2) * (1 + b))) by (field; repeat split; nra). replace (1 / (1 - s)) with ((1 + s) * (1 + b) / ((1 - s ^ 2) * (1 + b))) by (field; repeat split; nra).
    assert (0 <= (s - b) * (1 - s) /\ 0 <= (s + b) * (1 + s)) by (split; apply Rmult_le_pos; lra). split; (apply Rmult_le_compat_r; [lra |]); lra. }
  specialize (Q _ eq_refl). specialize (Q' _ eq_refl). split.
  - rewrite E1. unfold Rdiv in Q' |- *. rewrite !Rmult_1_l in Q'. split; apply Rmult_le_compat_l; lra.
  - eexists. split; [exact EB |]. rewrite E2, EI. rewrite <- Rmult_assoc. rewrite <- EI. unfold Rdiv in Q |- *. rewrite !Rmult_1_l in Q. split; apply Rmult_le_compat_l; lra.
Qed.
Print Assumptions C142_ranges.

(** only the long-lived state decays for real P without S (the SM), only the short-lived one for real S without P *)
Theorem C142_one_state (d : bqll) (l : lep3) : allowed2 d l l -> 0 < strength d l -> -1 < ydiff d < 1 ->
  (snd (ampP d l) = 0 -> ampS d l = RtoC 0 ->
     ADG_func d l = 1 /\ tau_ll_func d l = ll_tau d / (1 - ydiff d) /\ bqll_timeint d l l = Ok (bqll_inst d l l / (1 - ydiff d))) /\
  (snd (ampS d l) = 0 -> ampP d l = RtoC 0 ->
     ADG_func d l = -1 /\ tau_ll_func d l = ll_tau d / (1 + ydiff d) /\ bqll_timeint d l l = Ok (bqll_inst d l l / (1 + ydiff d))) /\
  (ydiff d = 0 -> tau_ll_func d l = ll_tau d /\ bqll_timeint d l l = Ok (bqll_inst d l l)).
Proof.
  intros A P Y. pose proof (tau_is d l A Y P) as ET. pose proof (timeint_is d l A Y P) as EB. pose proof (inst_equal d l A) as EI. pose proof (ADG_is d l A) as EA.
  assert (Y2 : 1 - ydiff d ^ 2 <> 0) by nra. set (y := ydiff d) in *. set (N := strength d l) in *. set (D := fst (ampP d l * ampP d l)%C - fst (ampS d l * ampS d l)%C) in *.
  assert (n1 : 0 < N * (1 - y)) by (apply Rmult_lt_0_compat; lra). assert (n2 : 0 < N * (1 + y)) by (apply Rmult_lt_0_compat; lra).
  refine (conj _ (conj _ _)).
  - intros I0 S0. assert (ED : D = N) by (unfold D, N, strength; rewrite S0, Cmod_0, !cmod_sq; unfold Cmult, RtoC; cbn [fst snd]; rewrite I0; ring).
    rewrite EA, ET, EB, EI, ED. split; [field; lra |]. split; [field; repeat split; lra |]. f_equal. field. repeat split; lra.
  - intros I0 P0. assert (ED : D = - N) by (unfold D, N, strength; rewrite P0, Cmod_0, !cmod_sq; unfold Cmult, RtoC; cbn [fst snd]; rewrite I0; ring).
    rewrite EA, ET, EB, EI, ED. split; [field; lra |]. split; [field; repeat split; lra |]. f_equal. field. repeat split; lra.
  - intros y0. rewrite ET, EB, EI, y0. split; [field; lra |]. f_equal. field.
Qed.
Print Assumptions C142_one_state.

(** measured lifetime and asymmetry determine each other *)
Theorem C142_asymmetry_from_lifetime (d : bqll) (l : lep3) : allowed2 d l l -> 0 < strength d l -> -1 < ydiff d < 1 -> ydiff d <> 0 ->
  let y := ydiff d in let t := tau_ll_func d l in
  ADG_func d l = ((1 - y ^ 2) * t - (1 + y ^ 2) * ll_tau d) / (y * (2 * ll_tau d - (1 - y ^ 2) * t)).
Proof.
  intros A P Y y0 y t. unfold t. rewrite (tau_is d l A Y P), (ADG_is d l A). pose proof (weight_pos d l Y P) as W. assert (T := A). destruct T as (_ & _ & _ & _ & _ & _ & T).
  fold y in W |- *. set (N := strength d l) in *. set (D := fst (ampP d l * ampP d l)%C - fst (ampS d l * ampS d l)%C) in *. assert (Y2 : 1 - y ^ 2 <> 0) by (unfold y; nra).
  set (a := D / N) in *. assert (ED : D = N * a) by (unfold a; field; lra). rewrite ED. unfold y in *.
  assert (1 + a * ydiff d <> 0) by lra.
  replace (ll_tau d * ((N * (1 + ydiff d ^ 2) + 2 * (N * a) * ydiff d) / (1 - ydiff d ^ 2) ^ 2 / ((N + N * a * ydiff d) / (1 - ydiff d ^ 2)))) with (ll_tau d * (1 + ydiff d ^ 2 + 2 * a * ydiff d) / ((1 - ydiff d ^ 2) * (1 + a * ydiff d))) by (field; repeat split; nra).
  assert (E : 2 * ll_tau d - (1 - ydiff d ^ 2) * (ll_tau d * (1 + ydiff d ^ 2 + 2 * a * ydiff d) / ((1 - ydiff d ^ 2) * (1 + a * ydiff d))) = ll_tau d * (1 - ydiff d ^ 2) / (1 + a * ydiff d)) by (field; split; lra).
  rewrite E. field. repeat split; lra.
Qed.
Print Assumptions C142_asymmetry_from_lifetime.

(** lepton-flavour violation: errors, symmetric sums, nothing without new physics *)
Theorem C142_flavours (d : bqll) (l1 l2 : lep3) :
  (l1 <> l2 -> bqll_timeint d l1 l2 = Err ValueError /\
     bqll_lsum d l1 l2 = Ok (bqll_inst d l1 l2 + bqll_inst d l2 l1) /\ bqll_lsum d l1 l2 = bqll_lsum d l2 l1 /\
     ((forall op, ll_np d op l1 l2 = RtoC 0 /\ ll_np d op l2 l1 = RtoC 0) -> bqll_lsum d l1 l2 = Ok 0)) /\
  bqll_lsum d l1 l1 = Err ValueError.
Proof.
  split; [| unfold bqll_lsum; destruct l1; reflexivity]. intros Hne.
  assert (E : lep3_eqb l1 l2 = false) by (destruct l1, l2; try reflexivity; exfalso; apply Hne; reflexivity).
  assert (E' : lep3_eqb l2 l1 = false) by (destruct l1, l2; try reflexivity; exfalso; apply Hne; reflexivity).
  unfold bqll_timeint, br_timeint, bqll_lsum, bqll_inst, wc_of. rewrite E, E'. refine (conj eq_refl (conj eq_refl (conj _ _))); [f_equal; ring |].
  intros Z. assert (Z0 : forall a b, (forall op, ll_np d op a b = RtoC 0) -> br_inst d (ll_np d) a b = 0).
  { intros a b H. unfold br_inst, amplitudes. rewrite !H. assert (Hz : forall b x y : R, (RtoC b * (RtoC x * (RtoC 0 - RtoC 0) + RtoC y * (RtoC 0 - RtoC 0)))%C = RtoC 0) by (intros; ring).
    rewrite !Hz, Cmod_0. ring. }
  rewrite (Z0 l1 l2), (Z0 l2 l1) by (intros op; apply Z). f_equal. ring.
Qed.
Print Assumptions C142_flavours.

(** a decay that meets the hypotheses *)
Definition ex_ll : bqll := Bqll (fun l => match l with Le => 0 | Lmu => 1 | Ltau => 2 end) 4 1 1 3 1 1 1 (RtoC 1) (1 / 2)
  (fun op l1 l2 => match op with OS => if lep3_eqb l1 l2 then (0, 1) else RtoC 0 | O9 => if lep3_eqb l1 l2 then RtoC 0 else RtoC 1 | _ => RtoC 0 end)
  (fun op => match op with O9 => RtoC 4 | O10 => RtoC (-4) | _ => RtoC 0 end).
Example ex_ll_ok : allowed2 ex_ll Lmu Lmu /\ allowed2 ex_ll Le Lmu /\ 0 < strength ex_ll Lmu /\ -1 < ydiff ex_ll < 1 /\ ydiff ex_ll <> 0.
Proof.
  unfold allowed2, ydiff. cbn. refine (conj _ (conj _ (conj _ (conj _ _)))); try lra. unfold strength.
  apply Rplus_lt_le_0_compat; [| apply pow2_ge_0]. apply pow_lt, Cmod_gt_0. unfold ampP, line5, coef, chiral. cbn. intros z.
  assert (E := f_equal fst z). unfold Cdiv, Cmult, Cinv, Cplus, Cminus, Copp, RtoC in E. cbn in E. lra.
Qed.

(** ** C143: P -> l nu and tau -> P nu *)
Lemma rsum3 (f : lep3 -> R) : rsum (map f leps) = f Le + f Lmu + f Ltau.
Proof. unfold rsum, leps. cbn. ring. Qed.
(** branching ratios of B+, Bc, K+ and pi+: lifetime times the sum over neutrino flavours of the widths; the SM contributes to one *)
Theorem C143_widths (d : plnu) (P : charged) (l : lep3) : lnu_ok d -> pl_m d l < pl_mP d -> P <> Dplus -> P <> Ds ->
  br_plnu d P l = pl_tau d * (width_lnu d P l Le + width_lnu d P l Lmu + width_lnu d P l Ltau) /\
  gamma_plnu d P l = width_lnu d P l Le + width_lnu d P l Lmu + width_lnu d P l Ltau /\
  (0 <= radiative d P l -> 0 <= br_plnu d P l).
Proof.
  intros W L H1 H2. assert (E : br_plnu d P l = pl_tau d * (width_lnu d P l Le + width_lnu d P l Lmu + width_lnu d P l Ltau)).
  { unfold br_plnu. rewrite rsum3, !br1_is by assumption. ring. }
  assert (T : 0 < pl_tau d) by apply W. refine (conj E (conj _ _)); [unfold gamma_plnu; rewrite E; field; lra |].
  intros R. rewrite E. apply Rmult_le_pos; [lra |]. pose proof (width_pos d W P l Le L R). pose proof (width_pos d W P l Lmu L R). pose proof (width_pos d W P l Ltau L R). lra.
Qed.
Print Assumptions C143_widths.

(** D decays: the same if there are no scalar operators *)
Theorem C143_charm (d : plnu) (P : charged) (l : lep3) : lnu_ok d -> pl_m d l < pl_mP d -> P = Dplus \/ P = Ds ->
  (forall nu, pl_np d FSR l nu = pl_np d FSL l nu) ->
  br_plnu d P l = pl_tau d * (width_lnu d P l Le + width_lnu d P l Lmu + width_lnu d P l Ltau).
Proof.
  intros W L HP Z. assert (W' := W). destruct W' as (Wm & _ & _ & _ & _ & _ & Wb & Wc & Ws & Wd & Wu). pose proof (Wm l) as m0.
  assert (E : forall nu, br1 d P l nu = pl_tau d * width_lnu d P l nu).
  { intros nu. assert (E0 : br1 d P l nu = pl_tau d * (phase_space (pl_mP d) (pl_m d l) 0 * squared_lnu d (pl_CVLSM d) (pl_m d l) (pl_mb d) (pl_mc d) l nu * (1 + 0))) by (unfold br1; destruct HP as [-> | ->]; apply general_is; lra).
    rewrite E0. unfold width_lnu, squared_lnu. assert (EC : forall q1 q2 r1 r2, current d (pl_CVLSM d) (pl_m d l) q1 q2 l nu = current d (pl_CVLSM d) (pl_m d l) r1 r2 l nu).
    { intros. unfold current, fc. rewrite Z. ring. }
    rewrite (EC (pl_mb d) (pl_mc d) (fst (quarks d P)) (snd (quarks d P))). destruct HP as [-> | ->]; cbn [sm_of radiative]; ring. }
  unfold br_plnu. rewrite rsum3, !E. ring.
Qed.
Print Assumptions C143_charm.

(** helicity suppression: with universal vector couplings the ratio of two flavours depends on masses only *)
Theorem C143_helicity_suppression (d : plnu) (P : charged) (l1 l2 : lep3) (cl cr : C) : lnu_ok d -> P <> Dplus -> P <> Ds ->
  pl_m d l1 < pl_mP d -> pl_m d l2 < pl_mP d ->
  (forall l nu, pl_np d FSR l nu = RtoC 0 /\ pl_np d FSL l nu = RtoC 0 /\ pl_np d FVL l nu = (if lep3_eqb l nu then cl else RtoC 0) /\ pl_np d FVR l nu = (if lep3_eqb l nu then cr else RtoC 0)) ->
  let k l := radiative d P l * pl_m d l ^ 2 * (pl_mP d ^ 2 - pl_m d l ^ 2) ^ 2 in
  br_plnu d P l1 * k l2 = br_plnu d P l2 * k l1.
Proof.
  intros W D1 D2 L1 L2 Z k. rewrite (proj1 (C143_widths d P l1 W L1 D1 D2)), (proj1 (C143_widths d P l2 W L2 D1 D2)).
  assert (m1 : 0 < pl_m d l1) by apply W. assert (m2 : 0 < pl_m d l2) by apply W. assert (mP : 0 < pl_mP d) by apply W.
  set (q1 := fst (quarks d P)). set (q2 := snd (quarks d P)). set (sm := sm_of d P).
  assert (EC : forall l nu, Cmod (current d sm (pl_m d l) q1 q2 l nu) ^ 2 = pl_m d l ^ 2 * (if lep3_eqb l nu then Cmod (cl + RtoC sm - cr)%C ^ 2 else 0)).
  { intros l nu. unfold current, fc. destruct (Z l nu) as (z1 & z2 & z3 & z4). rewrite z1, z2, z3, z4. destruct (lep3_eqb l nu).
    - replace (_ + _)%C with (RtoC (pl_m d l) * (cl + RtoC sm - cr))%C by ring. apply Cmod_scale.
    - replace (_ + _)%C with (RtoC 0) by ring. rewrite Cmod_0. ring. }
  assert (ES : forall l, 0 < pl_m d l < pl_mP d -> phase_space (pl_mP d) (pl_m d l) 0 = (pl_mP d ^ 2 - pl_m d l ^ 2) / (16 * PI * pl_mP d ^ 3)).
  { intros l Hl. unfold phase_space. f_equal. replace ((pl_mP d ^ 2 - (pl_m d l + 0) ^ 2) * (pl_mP d ^ 2 - (pl_m d l - 0) ^ 2)) with ((pl_mP d ^ 2 - pl_m d l ^ 2) ^ 2) by ring. apply sqrt_pow2. nra. }
  assert (EW : forall l nu, 0 < pl_m d l < pl_mP d -> width_lnu d P l nu = (4 * pl_GF d / sqrt 2 * Cmod (pl_V d) * (pl_f d / 2)) ^ 2 / (16 * PI * pl_mP d ^ 3) * k l * (if lep3_eqb l nu then Cmod (cl + RtoC sm - cr)%C ^ 2 else 0)).
  { intros l nu Hl. unfold width_lnu, squared_lnu. fold q1 q2 sm. rewrite EC, ES by exact Hl. unfold k, dot. cbv beta. pose proof PI_RGT_0. assert (sqrt 2 <> 0) by (apply Rgt_not_eq, sqrt_lt_R0; lra). field. repeat split; lra. }
  rewrite !EW by lra. destruct l1, l2; cbn [lep3_eqb]; ring.
Qed.
Print Assumptions C143_helicity_suppression.

(** tau -> P nu *)
Theorem C143_tau (d : plnu) (P : charged) : lnu_ok d -> P = Kplus \/ P = piplus -> pl_mP d < pl_m d Ltau ->
  br_taupnu d P = pl_tautau d * (width_taup d P Le + width_taup d P Lmu + width_taup d P Ltau) /\ 0 <= br_taupnu d P.
Proof.
  intros W HP L. assert (E : br_taupnu d P = pl_tautau d * (width_taup d P Le + width_taup d P Lmu + width_taup d P Ltau)).
  { unfold br_taupnu. rewrite rsum3, !taup_is by assumption. ring. }
  split; [exact E |]. rewrite E. destruct W as (Wm & WP & _ & T & _). pose proof (Wm Ltau). pose proof PI_RGT_0.
  assert (Q : forall nu, 0 <= width_taup d P nu).
  { intros nu. unfold width_taup, phase_space. apply Rmult_le_pos.
    - apply Rmult_le_pos; [apply sqrt_pos | left; apply Rinv_0_lt_compat; apply Rmult_lt_0_compat; [lra | apply pow_lt; lra]].
    - apply Rmult_le_pos; [| apply pow2_ge_0]. apply Rmult_le_pos; [| nra]. apply Rmult_le_pos; [lra | apply pow2_ge_0]. }
  apply Rmult_le_pos; [lra |]. pose proof (Q Le). pose proof (Q Lmu). pose proof (Q Ltau). lra.
Qed.
Print Assumptions C143_tau.

Definition ex_lnu : plnu := Plnu (fun l => match l with Le => 1 / 10 | Lmu => 1 | Ltau => 3 end) 2 1 1 1 (RtoC 1) 5 1 (1 / 2) (1 / 5) (1 / 10) 1 1 (fun _ => 0) 1
  (fun op l nu => match op with FSR => RtoC 1 | FVR => if lep3_eqb l nu then (0, 1) else RtoC 0 | _ => RtoC 0 end).
Example ex_lnu_ok : lnu_ok ex_lnu /\ pl_m ex_lnu Lmu < pl_mP ex_lnu < pl_m ex_lnu Ltau /\ pl_m ex_lnu Le < pl_mP ex_lnu.
Proof. unfold lnu_ok. cbn. repeat split; try lra. intros []; lra. Qed.

(** ** C144: D decays with scalar operators use the wrong quark masses *)
(** whatever the masses of the quarks of the meson, the published value is that of a meson made of b and c quarks *)
Theorem C144_bc_masses (d : plnu) (l : lep3) : lnu_ok d -> pl_m d l < pl_mP d -> br_plnu d Dplus l = br_plnu d Bc l /\ br_plnu d Ds l = br_plnu d Bc l.
Proof. intros _ _. unfold br_plnu. rewrite !rsum3. split; reflexivity. Qed.
Print Assumptions C144_bc_masses.
Theorem C144_scalar_refuted (P : charged) : P = Dplus \/ P = Ds -> exists d l, lnu_ok d /\ pl_m d l < pl_mP d /\
  br_plnu d P l <> pl_tau d * (width_lnu d P l Le + width_lnu d P l Lmu + width_lnu d P l Ltau).
Proof.
  intros HP. set (dd := Plnu (fun l => 1) 2 1 1 1 (RtoC 1) 5 1 1 1 (1 / 10) 0 1 (fun _ => 0) 1 (fun op l nu => match op with FSR => if lep3_eqb l nu then RtoC 1 else RtoC 0 | _ => RtoC 0 end)).
  assert (W : lnu_ok dd) by (unfold lnu_ok; cbn; repeat split; try lra; intros []; lra).
  exists dd, Lmu. refine (conj W (conj _ _)); [cbn; lra |].
  assert (LL : pl_m dd Lmu < pl_mP dd) by (cbn; lra).
  assert (EB : br_plnu dd P Lmu = br_plnu dd Bc Lmu) by (destruct HP as [-> | ->]; [exact (proj1 (C144_bc_masses dd Lmu W LL)) | exact (proj2 (C144_bc_masses dd Lmu W LL))]).
  rewrite EB, (proj1 (C143_widths dd Bc Lmu W LL ltac:(discriminate) ltac:(discriminate))). intros E. apply Rmult_eq_reg_l in E; [| cbn; lra].
  set (K := phase_space 2 1 0 * ((4 * 1 / sqrt 2 * Cmod (RtoC 1) * (1 / 2)) ^ 2 * (2 * dot 2 1 0))).
  assert (s2 : 0 < sqrt 2) by (apply sqrt_lt_R0; lra). pose proof PI_RGT_0.
  assert (KP : 0 < K).
  { unfold K, phase_space, dot. rewrite Cmod_1. apply Rmult_lt_0_compat; [apply Rmult_lt_0_compat; [apply sqrt_lt_R0; lra | apply Rinv_0_lt_compat; lra] |].
    apply Rmult_lt_0_compat; [| lra]. apply pow_lt. apply Rmult_lt_0_compat; [| lra]. rewrite Rmult_1_r. apply Rmult_lt_0_compat; [lra | now apply Rinv_0_lt_compat]. }
  assert (EW : forall Q nu, Q = Bc \/ Q = P -> width_lnu dd Q Lmu nu = K * (if lep3_eqb Lmu nu then (4 / (fst (quarks dd Q) + snd (quarks dd Q))) ^ 2 else 0)).
  { intros Q nu HQ. unfold width_lnu, squared_lnu, K. assert (R1 : radiative dd Q Lmu = 1) by (destruct HQ as [-> | ->]; [reflexivity | destruct HP as [-> | ->]; reflexivity]).
    assert (S0 : sm_of dd Q = 0) by (destruct HQ as [-> | ->]; [reflexivity | destruct HP as [-> | ->]; reflexivity]). rewrite R1, S0.
    set (q1 := fst (quarks dd Q)). set (q2 := snd (quarks dd Q)). unfold current, fc. cbn [pl_mP pl_m pl_GF pl_V pl_f pl_np dd].
    destruct nu; cbn [lep3_eqb].
    1, 3: replace (_ + _)%C with (RtoC 0) by ring; rewrite Cmod_0; ring.
    replace (RtoC 1 * _ + _)%C with (RtoC (2 ^ 2 / (q1 + q2))) by ring. rewrite (Cmod_R (2 ^ 2 / (q1 + q2))), pow2_abs. replace (2 ^ 2 / (q1 + q2)) with (4 / (q1 + q2)) by (unfold Rdiv; ring). ring. }
  rewrite !(EW Bc), !(EW P) in E by tauto. cbn [lep3_eqb] in E.
  assert (Q1 : fst (quarks dd Bc) + snd (quarks dd Bc) = 6) by (cbn; lra). assert (Q2 : fst (quarks dd P) + snd (quarks dd P) = 2) by (destruct HP as [-> | ->]; cbn; lra).
  rewrite Q1, Q2 in E. lra.
Qed.
Print Assumptions C144_scalar_refuted.

(** ** C145: tau -> l nu nu *)
Lemma lookup_named (d : taulnunu) lep nu1 nu2 : named d lep nu1 nu2 ->
  BR_taulnunu d lep nu1 nu2 = Ok (tl_tau d / 3 / 2 ^ 9 / PI ^ 3 * tl_m d Ltau ^ 5
    * BR3 (tl_m d lep ^ 2 / tl_m d Ltau ^ 2) (if andb (lep3_eqb nu1 Ltau) (lep3_eqb nu2 lep) then value_of (tl_LL d) lep nu1 nu2 + RtoC (- 4 * tl_GFeff d / sqrt 2) else value_of (tl_LL d) lep nu1 nu2)%C (value_of (tl_LR d) lep nu1 nu2)
    * (1 + tl_alpha d / (2 * PI) * (25 / 4 - PI ^ 2))).
Proof.
  intros [(a & b & E1 & E2) | (E1 & E2 & a & b & E3 & E4)]; unfold BR_taulnunu, value_of; rewrite E1, E2; cbn [bind]; [reflexivity |].
  rewrite E3, E4. reflexivity.
Qed.
Lemma summed_named (d : taulnunu) lep : (forall nu1 nu2, named d lep nu1 nu2) ->
  exists f, (forall nu1 nu2, BR_taulnunu d lep nu1 nu2 = Ok (f nu1 nu2)) /\
    BR_taulnunu_summed d lep = Ok (rsum (map (fun p => f (fst p) (snd p)) (list_prod leps leps))).
Proof.
  intros H. eexists. split; [intros nu1 nu2; apply lookup_named, H |]. unfold BR_taulnunu_summed, list_prod, leps.
  cbn [map app mapM fst snd]. rewrite !lookup_named by apply H. cbn [bind]. reflexivity.
Qed.
Lemma emcorr_pos (a : R) : 0 <= a <= 1 / 10 -> 0 < 1 + a / (2 * PI) * (25 / 4 - PI ^ 2).
Proof.
  intros A. pose proof PI2_3_2. pose proof PI_4. pose proof PI_RGT_0. assert (P3 : 3 < PI) by (unfold PI2 in *; lra).
  assert (0 <= a / (2 * PI) <= 1 / 60). { split; [apply Rmult_le_pos; [lra | left; apply Rinv_0_lt_compat; lra] |]. apply (Rmult_le_reg_r (2 * PI)); [lra |]. unfold Rdiv at 1. rewrite Rmult_assoc, Rinv_l by lra. nra. }
  assert (PI ^ 2 <= 16) by nra. nra.
Qed.
Lemma pre_pos (d : taulnunu) lep : tl_ok d lep -> 0 < tl_tau d / 3 / 2 ^ 9 / PI ^ 3 * tl_m d Ltau ^ 5.
Proof.
  intros ((m1 & m2) & T & _). pose proof PI_RGT_0. apply Rmult_lt_0_compat; [| apply pow_lt; lra]. unfold Rdiv. repeat (apply Rmult_lt_0_compat; [| apply Rinv_0_lt_compat; first [lra | apply pow_lt; lra]]). exact T.
Qed.
Lemma ratio_sq (a b : R) : 0 < b -> a ^ 2 / b ^ 2 = (a / b) ^ 2.
Proof. intros. field. lra. Qed.

(** without new physics: the well-known rate, only for the flavours of the SM; the Fermi constant of muon decay is the measured one *)
Theorem C145_standard_model (d : taulnunu) (lep : lep3) : tl_ok d lep -> (forall nu1 nu2, named d lep nu1 nu2) ->
  (forall nu1 nu2, value_of (tl_LL d) lep nu1 nu2 = RtoC 0 /\ value_of (tl_LR d) lep nu1 nu2 = RtoC 0) ->
  BR_taulnunu_summed d lep = Ok (sm_rate d lep) /\ (tl_GFeff d <> 0 -> 0 < sm_rate d lep) /\
  forall nu1 nu2, BR_taulnunu d lep nu1 nu2 = Ok (if andb (lep3_eqb nu1 Ltau) (lep3_eqb nu2 lep) then sm_rate d lep else 0).
Proof.
  intros O Hn Z. assert (O' := O). destruct O' as ((m1 & m2) & T & Al). pose proof PI_RGT_0. assert (s2 : 0 < sqrt 2) by (apply sqrt_lt_R0; lra).
  assert (E : forall nu1 nu2, BR_taulnunu d lep nu1 nu2 = Ok (if andb (lep3_eqb nu1 Ltau) (lep3_eqb nu2 lep) then sm_rate d lep else 0)).
  { intros nu1 nu2. rewrite lookup_named by apply Hn. destruct (Z nu1 nu2) as (-> & ->). f_equal. rewrite ratio_sq by lra. unfold sm_rate, BR3, F3. cbv zeta. set (x := (tl_m d lep / tl_m d Ltau) ^ 2). rewrite Cmod_0.
    assert (R0 : forall z : C, re (z * Cconj (RtoC 0))%C = 0) by (intros [z1 z2]; unfold re, Cmult, Cconj, RtoC; cbn [fst snd]; ring). rewrite R0.
    destruct (lep3_eqb nu1 Ltau && lep3_eqb nu2 lep)%bool; [| rewrite Cmod_0; ring].
    rewrite Cplus_0_l, Cmod_R, pow2_abs. replace ((- 4 * tl_GFeff d / sqrt 2) ^ 2) with (16 * tl_GFeff d ^ 2 / sqrt 2 ^ 2) by (field; lra). rewrite pow2_sqrt by lra. field. lra. }
  destruct (summed_named d lep Hn) as (f & Ef & Es). refine (conj _ (conj _ E)).
  - rewrite Es. f_equal. assert (Ef' : forall nu1 nu2, f nu1 nu2 = if andb (lep3_eqb nu1 Ltau) (lep3_eqb nu2 lep) then sm_rate d lep else 0) by (intros nu1 nu2; pose proof (Ef nu1 nu2) as X; rewrite E in X; now injection X).
    unfold list_prod, leps, rsum. cbn [map app fold_right fst snd]. rewrite !Ef'. destruct lep; cbn [lep3_eqb andb]; ring.
  - intros G0. unfold sm_rate. assert (0 < tl_GFeff d ^ 2) by (assert (h := pow2_ge_0 (tl_GFeff d)); destruct h as [h | h]; [exact h | exfalso; apply G0; apply (Rsqr_0_uniq); rewrite Rsqr_pow2; lra]).
    apply Rmult_lt_0_compat; [apply Rmult_lt_0_compat |]; [| apply F3_pos | now apply emcorr_pos].
    + apply Rmult_lt_0_compat; [exact T |]. apply Rmult_lt_0_compat; [apply Rmult_lt_0_compat; [lra | apply pow_lt; lra] | apply Rinv_0_lt_compat; apply Rmult_lt_0_compat; [lra | apply pow_lt; lra]].
    + assert (0 < tl_m d lep / tl_m d Ltau < 1). { split; [apply Rmult_lt_0_compat; [lra | apply Rinv_0_lt_compat; lra] |]. apply (Rmult_lt_reg_r (tl_m d Ltau)); [lra |]. unfold Rdiv. rewrite Rmult_assoc, Rinv_l by lra. lra. }
      split; [apply pow_lt; lra | nra].
Qed.
Print Assumptions C145_standard_model.

(** the effective Fermi constant without new physics in muon decay *)
Theorem C145_fermi_constant (me mmu GF : R) : 0 < me < mmu -> 0 < GF -> GFeff me mmu GF (RtoC 0) (RtoC 0) = Ok GF.
Proof.
  intros (m1 & m2) G. unfold GFeff. cbv zeta. rewrite Cplus_0_l. assert (s2 : 0 < sqrt 2) by (apply sqrt_lt_R0; lra).
  assert (B : 0 < BR3 (me ^ 2 / mmu ^ 2) (RtoC (- 4 * GF / sqrt 2)) (RtoC 0)).
  { unfold BR3. rewrite Cmod_0, Cmod_R, pow2_abs. assert (R0 : forall z : C, re (z * Cconj (RtoC 0))%C = 0) by (intros [z1 z2]; unfold re, Cmult, Cconj, RtoC; cbn [fst snd]; ring). rewrite R0.
    replace (_ - _) with (F3 (me ^ 2 / mmu ^ 2) * (- 4 * GF / sqrt 2) ^ 2) by ring. apply Rmult_lt_0_compat.
    - apply F3_pos. rewrite ratio_sq by lra. assert (0 < me / mmu < 1). { split; [apply Rmult_lt_0_compat; [lra | apply Rinv_0_lt_compat; lra] |]. apply (Rmult_lt_reg_r mmu); [lra |]. unfold Rdiv. rewrite Rmult_assoc, Rinv_l by lra. lra. }
      split; [apply pow_lt; lra | nra].
    - replace ((- 4 * GF / sqrt 2) ^ 2) with ((4 * GF / sqrt 2) ^ 2) by (field; lra). apply pow_lt. apply Rmult_lt_0_compat; [lra | now apply Rinv_0_lt_compat]. }
  destruct (Req_EM_T _ 0) as [z | z]; [lra |]. replace (_ / _) with 1 by (field; exact z). destruct (Rlt_dec 1 0); [lra |]. destruct (Req_EM_T 1 0); [lra |]. rewrite sqrt_1. f_equal. field.
Qed.
Print Assumptions C145_fermi_constant.
(** new physics in muon decay of the form of the Standard Model, a fraction t of it, is absorbed: the measured Fermi constant is (1 + t) times the effective one *)
Theorem C145_fermi_absorbs (me mmu GF t : R) : 0 < me < mmu -> 0 < GF -> -1 < t -> GFeff me mmu GF (RtoC (t * (- 4 * GF / sqrt 2))) (RtoC 0) = Ok (GF / (1 + t)).
Proof.
  intros Hm G Ht. pose proof (C145_fermi_constant me mmu GF Hm G) as E. unfold GFeff in *. cbv zeta in *. rewrite Cplus_0_l in E.
  set (x := me ^ 2 / mmu ^ 2) in *. set (c := - 4 * GF / sqrt 2) in *.
  assert (K : BR3 x (RtoC (t * c) + RtoC c)%C (RtoC 0) = (1 + t) ^ 2 * BR3 x (RtoC c) (RtoC 0)).
  { rewrite <- RtoC_plus. unfold BR3. rewrite !Cmod_R, !pow2_abs. unfold re, Cmult, Cconj, RtoC; cbn [fst snd]. ring. }
  rewrite K. destruct (Req_EM_T (BR3 x (RtoC c) (RtoC 0)) 0) as [z | z]; [discriminate|].
  replace ((1 + t) ^ 2 * BR3 x (RtoC c) (RtoC 0) / BR3 x (RtoC c) (RtoC 0)) with ((1 + t) ^ 2) by (field; exact z).
  assert (P : 0 < (1 + t) ^ 2) by (apply pow_lt; lra).
  destruct (Rlt_dec ((1 + t) ^ 2) 0); [lra|]. destruct (Req_EM_T ((1 + t) ^ 2) 0); [lra|]. rewrite sqrt_pow2 by lra. reflexivity.
Qed.
Print Assumptions C145_fermi_absorbs.

(** without right-handed charged leptons: every flavour combination adds a non-negative contribution, and new physics in other
    neutrino flavours only increases the branching ratio *)
Theorem C145_left_handed (d : taulnunu) (lep : lep3) : tl_ok d lep -> (forall nu1 nu2, named d lep nu1 nu2) ->
  (forall nu1 nu2, value_of (tl_LR d) lep nu1 nu2 = RtoC 0) ->
  exists v w, BR_taulnunu_summed d lep = Ok v /\ BR_taulnunu d lep Ltau lep = Ok w /\ 0 <= w <= v /\
    (forall nu1 nu2, exists u, BR_taulnunu d lep nu1 nu2 = Ok u /\ 0 <= u) /\
    ((forall nu1 nu2, nu1 <> Ltau \/ nu2 <> lep -> value_of (tl_LL d) lep nu1 nu2 = RtoC 0) -> v = w).
Proof.
  intros O Hn Z. assert (O' := O). destruct O' as ((m1 & m2) & T & Al). destruct (summed_named d lep Hn) as (f & Ef & Es).
  assert (F : 0 < F3 (tl_m d lep ^ 2 / tl_m d Ltau ^ 2)).
  { apply F3_pos. rewrite ratio_sq by lra. assert (0 < tl_m d lep / tl_m d Ltau < 1). { split; [apply Rmult_lt_0_compat; [lra | apply Rinv_0_lt_compat; lra] |]. apply (Rmult_lt_reg_r (tl_m d Ltau)); [lra |]. unfold Rdiv. rewrite Rmult_assoc, Rinv_l by lra. lra. } split; [apply pow_lt; lra | nra]. }
  assert (R0 : forall z : C, re (z * Cconj (RtoC 0))%C = 0) by (intros [z1 z2]; unfold re, Cmult, Cconj, RtoC; cbn [fst snd]; ring).
  assert (Ff : forall nu1 nu2, exists z : C, f nu1 nu2 = tl_tau d / 3 / 2 ^ 9 / PI ^ 3 * tl_m d Ltau ^ 5 * (F3 (tl_m d lep ^ 2 / tl_m d Ltau ^ 2) * Cmod z ^ 2) * (1 + tl_alpha d / (2 * PI) * (25 / 4 - PI ^ 2)) /\ (nu1 <> Ltau \/ nu2 <> lep -> z = value_of (tl_LL d) lep nu1 nu2)).
  { intros nu1 nu2. pose proof (Ef nu1 nu2) as X. rewrite lookup_named in X by apply Hn. rewrite Z in X. injection X as X. rewrite <- X. unfold BR3. rewrite R0, Cmod_0. eexists. split; [f_equal; f_equal; rewrite Rmult_0_r, Rminus_0_r; f_equal; match goal with |- ?a + 0 ^ 2 = _ => transitivity a; [ring | reflexivity] end |].
    intros HN. destruct (lep3_eqb nu1 Ltau && lep3_eqb nu2 lep)%bool eqn:EE; [| reflexivity]. apply andb_prop in EE as (h1 & h2). exfalso. destruct nu1, nu2, lep; try discriminate h1; try discriminate h2; destruct HN as [h | h]; apply h; reflexivity. }
  assert (P0 : forall nu1 nu2, 0 <= f nu1 nu2).
  { intros nu1 nu2. destruct (Ff nu1 nu2) as (z & -> & _). apply Rmult_le_pos; [| left; now apply emcorr_pos]. apply Rmult_le_pos; [left; now apply (pre_pos d lep) |]. apply Rmult_le_pos; [lra | apply pow2_ge_0]. }
  exists (rsum (map (fun p => f (fst p) (snd p)) (list_prod leps leps))), (f Ltau lep). refine (conj Es (conj (Ef Ltau lep) (conj _ (conj _ _)))).
  - split; [apply P0 |]. unfold list_prod, leps, rsum. cbn [map app fold_right fst snd].
    pose proof (P0 Le Le). pose proof (P0 Le Lmu). pose proof (P0 Le Ltau). pose proof (P0 Lmu Le). pose proof (P0 Lmu Lmu). pose proof (P0 Lmu Ltau). pose proof (P0 Ltau Le). pose proof (P0 Ltau Lmu). pose proof (P0 Ltau Ltau).
    destruct lep; lra.
  - intros nu1 nu2. exists (f nu1 nu2). split; [apply Ef | apply P0].
  - intros Z2. assert (F0 : forall nu1 nu2, nu1 <> Ltau \/ nu2 <> lep -> f nu1 nu2 = 0).
    { intros nu1 nu2 HN. destruct (Ff nu1 nu2) as (z & -> & Hz). rewrite (Hz HN), (Z2 _ _ HN), Cmod_0. ring. }
    unfold list_prod, leps, rsum. cbn [map app fold_right fst snd].
    rewrite (F0 Le Le), (F0 Le Lmu), (F0 Le Ltau), (F0 Lmu Le), (F0 Lmu Lmu), (F0 Lmu Ltau) by (left; discriminate).
    destruct lep.
    + rewrite (F0 Ltau Lmu), (F0 Ltau Ltau) by (right; discriminate). ring.
    + rewrite (F0 Ltau Le), (F0 Ltau Ltau) by (right; discriminate). ring.
    + rewrite (F0 Ltau Le), (F0 Ltau Lmu) by (right; discriminate). ring.
Qed.
Print Assumptions C145_left_handed.
(** a coefficient may be given under either of its two names *)
Theorem C145_either_name (d d' : taulnunu) (lep nu1 nu2 : lep3) (a b : C) :
  tl_m d = tl_m d' -> tl_tau d = tl_tau d' -> tl_GFeff d = tl_GFeff d' -> tl_alpha d = tl_alpha d' ->
  tl_LL d nu2 nu1 Ltau lep = Some a -> tl_LR d nu2 nu1 Ltau lep = Some b ->
  tl_LL d' nu2 nu1 Ltau lep = None -> tl_LR d' nu2 nu1 Ltau lep = None ->
  tl_LL d' nu1 nu2 lep Ltau = Some (Cconj a) -> tl_LR d' nu1 nu2 lep Ltau = Some (Cconj b) ->
  BR_taulnunu d lep nu1 nu2 = BR_taulnunu d' lep nu1 nu2.
Proof.
  intros E1 E2 E3 E4 A B N1 N2 A' B'. rewrite !lookup_named; [| right; eauto 10 | left; eauto 10].
  unfold value_of. rewrite A, B, N1, N2, A', B', !Cconj_conj, E1, E2, E3, E4. reflexivity.
Qed.
Print Assumptions C145_either_name.

(** ** C146: the branching ratio of tau -> l nu nu can be negative *)
Theorem C146_negative_refuted (m : lep3 -> R) (tau G a : R) (lep : lep3) : 0 < m lep <= / 16 * m Ltau -> 0 < tau -> 0 < G -> 0 <= a <= 1 / 10 ->
  exists d v, tl_m d = m /\ tl_tau d = tau /\ tl_GFeff d = G /\ tl_alpha d = a /\ tl_ok d lep /\ (forall nu1 nu2, named d lep nu1 nu2) /\
    (forall nu1 nu2, value_of (tl_LL d) lep nu1 nu2 = RtoC 0) /\
    BR_taulnunu_summed d lep = Ok v /\ v < 0.
Proof.
  intros (m1 & m2) T HG A. assert (s2 : 0 < sqrt 2) by (apply sqrt_lt_R0; lra). set (c := RtoC (- 4 * G / sqrt 2)).
  set (d := Taulnunu m tau G a (fun _ _ _ _ => Some (RtoC 0)) (fun n2 n1 _ _ => Some (if andb (lep3_eqb n1 Ltau) (lep3_eqb n2 lep) then c else RtoC 0))).
  assert (O : tl_ok d lep) by (unfold tl_ok; cbn; repeat split; lra). assert (Hn : forall nu1 nu2, named d lep nu1 nu2) by (intros; left; unfold d; cbn; eauto).
  destruct (summed_named d lep Hn) as (f & Ef & Es). exists d. eexists. refine (conj eq_refl (conj eq_refl (conj eq_refl (conj eq_refl (conj O (conj Hn (conj _ (conj Es _)))))))); [intros; reflexivity |].
  assert (E : forall nu1 nu2, f nu1 nu2 = if andb (lep3_eqb nu1 Ltau) (lep3_eqb nu2 lep) then tau / 3 / 2 ^ 9 / PI ^ 3 * m Ltau ^ 5 * BR3 (m lep ^ 2 / m Ltau ^ 2) c c * (1 + a / (2 * PI) * (25 / 4 - PI ^ 2)) else 0).
  { intros nu1 nu2. pose proof (Ef nu1 nu2) as X. rewrite lookup_named in X by apply Hn. injection X as X. rewrite <- X. unfold d, value_of. cbn [tl_LL tl_LR tl_m tl_tau tl_GFeff tl_alpha].
    destruct (lep3_eqb nu1 Ltau && lep3_eqb nu2 lep)%bool; [rewrite Cplus_0_l; reflexivity |]. unfold BR3. rewrite Cmod_0. unfold re, Cmult, Cconj, RtoC. cbn [fst snd]. ring. }
  assert (EV : rsum (map (fun p => f (fst p) (snd p)) (list_prod leps leps)) = tau / 3 / 2 ^ 9 / PI ^ 3 * m Ltau ^ 5 * BR3 (m lep ^ 2 / m Ltau ^ 2) c c * (1 + a / (2 * PI) * (25 / 4 - PI ^ 2))).
  { unfold list_prod, leps, rsum. cbn [map app fold_right fst snd]. rewrite !E. destruct lep; cbn [lep3_eqb andb]; ring. }
  rewrite EV. pose proof (emcorr_pos a A) as EM. pose proof (pre_pos d lep O) as PP. cbn [tl_tau tl_m d] in PP.
  assert (N : BR3 (m lep ^ 2 / m Ltau ^ 2) c c < 0).
  { rewrite ratio_sq by lra. destruct (light_F3 (m lep / m Ltau)) as (F1 & G1).
    { split; [apply Rmult_lt_0_compat; [lra | apply Rinv_0_lt_compat; lra] |]. apply (Rmult_le_reg_r (m Ltau)); [lra |]. unfold Rdiv. rewrite Rmult_assoc, Rinv_l by lra. lra. }
    unfold BR3, c. rewrite Cmod_R, pow2_abs. set (k := - 4 * G / sqrt 2). replace (re (RtoC k * Cconj (RtoC k))%C) with (k ^ 2) by (unfold re, Cmult, Cconj, RtoC; cbn [fst snd]; ring).
    assert (K : 0 < k ^ 2). { unfold k. replace ((- 4 * G / sqrt 2) ^ 2) with ((4 * G / sqrt 2) ^ 2) by (field; lra). apply pow_lt. apply Rmult_lt_0_compat; [lra | now apply Rinv_0_lt_compat]. } nra. }
  set (pre := tau / 3 / 2 ^ 9 / PI ^ 3 * m Ltau ^ 5) in *. set (b := BR3 _ _ _) in *. set (e := 1 + _) in *.
  assert (0 < pre * (- b) * e) by (apply Rmult_lt_0_compat; [apply Rmult_lt_0_compat |]; lra). lra.
Qed.
Print Assumptions C146_negative_refuted.
Example ex_tau_ok : exists d, tl_ok d Lmu /\ (forall nu1 nu2, named d Lmu nu1 nu2) /\ tl_GFeff d <> 0.
Proof.
  exists (Taulnunu (fun l => match l with Le => 1 / 1000 | Lmu => 1 / 10 | Ltau => 2 end) 1 1 (1 / 100) (fun _ _ _ _ => Some (RtoC 0)) (fun _ _ _ _ => Some (RtoC 0))).
  split; [unfold tl_ok; cbn; lra |]. split; [intros; left; cbn; eauto | cbn; lra].
Qed.

(** ** C147: decays of a fermion to a fermion and a boson *)
Lemma squared_v1_pos (sigma mv : R) (s t : C) : 0 <= squared_v1 sigma mv s t.
Proof. unfold squared_v1. apply Rplus_le_le_0_compat; [| apply Rmult_le_pos; [lra |]]; apply pow2_ge_0. Qed.
Lemma phase_pos M m1 m2 : 0 < M -> 0 <= phase_space M m1 m2.
Proof. intros P. pose proof PI_RGT_0. unfold phase_space. apply Rmult_le_pos; [apply sqrt_pos |]. left. apply Rinv_0_lt_compat. apply Rmult_lt_0_compat; [lra | apply pow_lt; exact P]. Qed.
(** massive vector: the width is phase space times the sum over the polarisations of squared helicity amplitudes, for all couplings *)
Theorem C147_vector (M mv mf : R) (gL gR gTL gtTL gTR gtTR : C) : 0 < mv -> 0 <= mf -> mf + mv <= M ->
  GammaFvf M mv mf gL gR gTL gtTL gTR gtTR = phase_space M mf mv * squared_v M mv mf gL gR gTL gtTL gTR gtTR /\
  0 <= GammaFvf M mv mf gL gR gTL gtTL gTR gtTR.
Proof.
  intros V F L. rewrite Fvf_is by assumption. split; [reflexivity |]. apply Rmult_le_pos; [apply phase_pos; lra |]. unfold squared_v. cbv zeta.
  apply Rplus_le_le_0_compat; (apply Rmult_le_pos; [| apply squared_v1_pos]); nra.
Qed.
Print Assumptions C147_vector.
Theorem C147_scalar (M ms mf : R) (gL gR : C) : 0 <= ms -> 0 <= mf -> 0 < M -> mf + ms <= M ->
  GammaFsf M ms mf gL gR = phase_space M mf ms * squared_s M ms mf gL gR /\ 0 <= GammaFsf M ms mf gL gR.
Proof.
  intros S F P L. assert (E : GammaFsf M ms mf gL gR = phase_space M mf ms * squared_s M ms mf gL gR) by (unfold GammaFsf; rewrite Gamma2_is by lra; now rewrite squared_s_is).
  rewrite E. split; [reflexivity |]. apply Rmult_le_pos; [now apply phase_pos |]. unfold squared_s. apply Rplus_le_le_0_compat; (apply Rmult_le_pos; [| apply pow2_ge_0]); nra.
Qed.
Print Assumptions C147_scalar.
(** the photon: only the two transverse polarisations; l -> l' gamma *)
Theorem C147_photon (M mf tau : R) (C12 C21 : C) : 0 <= mf < M ->
  BR_llgamma tau M mf C12 C21 = tau * ((M ^ 2 - mf ^ 2) ^ 3 / (4 * PI * M ^ 3) * (Cmod C12 ^ 2 + Cmod C21 ^ 2)) /\
  (0 <= tau -> 0 <= BR_llgamma tau M mf C12 C21) /\ (C12 = RtoC 0 -> C21 = RtoC 0 -> BR_llgamma tau M mf C12 C21 = 0).
Proof.
  intros (F & L). pose proof PI_RGT_0. assert (E : BR_llgamma tau M mf C12 C21 = tau * ((M ^ 2 - mf ^ 2) ^ 3 / (4 * PI * M ^ 3) * (Cmod C12 ^ 2 + Cmod C21 ^ 2))).
  { unfold BR_llgamma. rewrite Fvf_photon by lra. f_equal. unfold phase_space. replace ((M ^ 2 - (mf + 0) ^ 2) * (M ^ 2 - (mf - 0) ^ 2)) with ((M ^ 2 - mf ^ 2) ^ 2) by ring. rewrite sqrt_pow2 by nra.
    replace (RtoC 2 * Cconj C12 - RtoC 0)%C with (RtoC 2 * Cconj C12)%C by ring. rewrite Cplus_0_r, !Cmod_scale. replace (Cmod (Cconj C12) ^ 2) with (Cmod C12 ^ 2) by (rewrite !cmod_sq; destruct C12 as [a b]; unfold Cconj; cbn [fst snd]; ring). field. lra. }
  rewrite E. refine (conj eq_refl (conj _ _)).
  - intros T. apply Rmult_le_pos; [exact T |]. apply Rmult_le_pos; [apply Rmult_le_pos; [apply pow_le; nra | left; apply Rinv_0_lt_compat; apply Rmult_lt_0_compat; [lra | apply pow_lt; lra]] |]. apply Rplus_le_le_0_compat; apply pow2_ge_0.
  - intros -> ->. rewrite Cmod_0. ring.
Qed.
Print Assumptions C147_photon.
