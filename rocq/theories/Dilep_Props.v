(** * Theorems about Drell-Yan production of leptons (C209, C210) *)
From Coq Require Import Reals Lra.
From Coquelicot Require Import Coquelicot.
From Coq Require Import String List ZArith.
From Verif Require Import Base Basics_Model Basics_Proofs Decays_Model Decays_Proofs Decays_Proofs3 Dilep_Model.
Import ListNotations.
Local Open Scope R_scope.

Definition charge_up (q : qk) : Prop := q = qu \/ q = qc.
Definition family (q : qk) : nat := match q with qu | qd => 0 | qc | qs => 1 | qb => 2 end%nat.
Definition kind (q : qk) : ud := match q with qu | qc => Up | _ => Dn end.
Definition no : C := RtoC 0.
Lemma int_quadratic (p q r a b : R) : RInt (fun x => p + q * x + r * x ^ 2) a b = p * (b - a) + q * (b ^ 2 - a ^ 2) / 2 + r * (b ^ 3 - a ^ 3) / 3.
Proof.
  rewrite (RI_der (fun x => p * x + q * x ^ 2 / 2 + r * x ^ 3 / 3) (fun x => p + q * x + r * x ^ 2)).
  - match goal with |- ?u = ?v => change (@eq R u v) end. field.
  - intros x. auto_derive; [exact I | match goal with |- ?u = ?v => change (@eq R u v) end; field].
  - intros x. apply (ex_derive_continuous (fun x => p + q * x + r * x ^ 2)). auto_derive. exact I.
Qed.

(** ** C209: p p -> l l *)
(** the quarks must have the same charge; then the partonic cross section is the integral over the angle between lepton and quark of the squared helicity amplitudes: vector operators with equal chiralities (1 + c)^2, with opposite
    (1 - c)^2, scalars without dependence on the angle, tensors c in the amplitude, with a scalar of the same chiralities; scalar and tensor operators also with the quarks exchanged (hermitian conjugate) *)
Theorem C209_partonic : forall sh q1 q2 l wc,
  (~ (charge_up q1 <-> charge_up q2) -> sigma_qqll_partonic sh q1 q2 l wc = Err ValueError) /\
  ((charge_up q1 <-> charge_up q2) -> let C o i j := wc o (kind q1) (lepton_index l) (lepton_index l) (family i) (family j) in
    let V o := Cmod (C o q1 q2) ^ 2 in
    sigma_qqll_partonic sh q1 q2 l wc = Ok (sh / (144 * PI) * RInt (fun c => 3 / 8 * ((1 + c) ^ 2 * (V OVLL + V OVRR) + (1 - c) ^ 2 * (V OVLR + V OVRL)
      + Cmod (C OSRL q1 q2) ^ 2 + Cmod (C OSRL q2 q1) ^ 2
      + Cmod (C OSRR q1 q2 + RtoC (4 * c) * C OTRR q1 q2)%C ^ 2 + Cmod (C OSRR q2 q1 + RtoC (4 * c) * C OTRR q2 q1)%C ^ 2)) (-1) 1)).
Proof.
  intros sh q1 q2 l wc. unfold charge_up. split.
  - intros H. destruct q1, q2; try reflexivity; exfalso; apply H; split; intros [X | X]; try discriminate X; auto.
  - intros H. assert (E : kind q1 = kind q2) by (destruct q1, q2; try reflexivity; exfalso; destruct H as [A B]; solve [destruct (A (or_introl eq_refl)); discriminate | destruct (A (or_intror eq_refl)); discriminate | destruct (B (or_introl eq_refl)); discriminate | destruct (B (or_intror eq_refl)); discriminate]).
    cbv zeta. unfold sigma_qqll_partonic.
    assert (K : forall q, fermion_indices q = (kind q, family q)) by (destruct q; reflexivity). rewrite !K, <- E.
    assert (U : udb (kind q1) (kind q1) = true) by (destruct q1; reflexivity). rewrite U. cbv zeta. f_equal. f_equal.
    generalize (Cmod (wc OVLL (kind q1) (lepton_index l) (lepton_index l) (family q1) (family q2)) ^ 2) (Cmod (wc OVLR (kind q1) (lepton_index l) (lepton_index l) (family q1) (family q2)) ^ 2)
      (Cmod (wc OVRL (kind q1) (lepton_index l) (lepton_index l) (family q1) (family q2)) ^ 2) (Cmod (wc OVRR (kind q1) (lepton_index l) (lepton_index l) (family q1) (family q2)) ^ 2)
      (Cmod (wc OSRL (kind q1) (lepton_index l) (lepton_index l) (family q1) (family q2)) ^ 2) (Cmod (wc OSRL (kind q1) (lepton_index l) (lepton_index l) (family q2) (family q1)) ^ 2)
      (wc OSRR (kind q1) (lepton_index l) (lepton_index l) (family q1) (family q2)) (wc OSRR (kind q1) (lepton_index l) (lepton_index l) (family q2) (family q1))
      (wc OTRR (kind q1) (lepton_index l) (lepton_index l) (family q1) (family q2)) (wc OTRR (kind q1) (lepton_index l) (lepton_index l) (family q2) (family q1)).
    intros a b c e f f' [x x'] [y y'] [z z'] [w w'].
    rewrite (RInt_ext _ (fun t => 3 / 8 * (a + e + b + c + f + f' + x ^ 2 + x' ^ 2 + y ^ 2 + y' ^ 2) + 3 / 8 * (2 * (a + e) - 2 * (b + c) + 8 * (x * z + x' * z' + y * w + y' * w')) * t + 3 / 8 * (a + e + b + c + 16 * (z ^ 2 + z' ^ 2 + w ^ 2 + w' ^ 2)) * t ^ 2)).
    + rewrite int_quadratic, !cmod_sq. cbn [fst snd]. field.
    + intros t _. rewrite !cmod_sq. cbn [fst snd Cplus Cmult RtoC]. match goal with |- ?u = ?v => change (@eq R u v) end. field.
Qed.
Print Assumptions C209_partonic.
(** consequently not negative; scalar and tensor operators only add to it, without interference with the Standard Model (which has no such amplitudes) *)
Definition no_vector (c : wcd) : Prop := forall o q i j k l, In o [OVLL; OVLR; OVRL; OVRR] -> c o q i j k l = no.
Lemma part_nonneg sh q1 q2 l wc y : 0 <= sh -> sigma_qqll_partonic sh q1 q2 l wc = Ok y -> 0 <= y.
Proof.
  intros h. unfold sigma_qqll_partonic. destruct (fermion_indices q1) as [a i1], (fermion_indices q2) as [b i2]. destruct (udb a b); [|discriminate].
  cbv zeta. intros [= <-]. pose proof PI_RGT_0. apply Rmult_le_pos; [apply Rdiv_le_0_compat; lra|].
  repeat apply Rplus_le_le_0_compat; try (apply Rmult_le_pos; [lra|]); apply pow2_ge_0.
Qed.
(** the sum over the pairs of quarks *)
Definition value (r : result R) : R := match r with Ok y => y | Err _ => 0 end.
Definition pairs : list (qk * qk) := list_prod duscb duscb.
Lemma fold_pairs (f : qk -> qk -> R) : forall l x, fold_left (fun s q1 => fold_left (fun s q2 => s + f q1 q2) duscb s) l x = x + fold_right Rplus 0 (map (fun p => f (fst p) (snd p)) (list_prod l duscb)).
Proof.
  induction l as [| q l IH]; intros x; cbn [fold_left list_prod map fold_right]; [ring|].
  rewrite IH, map_app, fold_right_app. unfold duscb. cbn [fold_left map fold_right fst snd].
  ring.
Qed.
Lemma fold_ext {A B} (f g : A -> B -> A) (H : forall a b, f a b = g a b) (l : list B) : forall x, fold_left f l x = fold_left g l x.
Proof. induction l as [| b l IH]; intros x; cbn [fold_left]; [reflexivity | now rewrite H, IH]. Qed.
Lemma dsig_is L s tau l wc : dsigma_dtau_qqll L s tau l wc = fold_right Rplus 0 (map (fun p => 2 * L (pdf_flavor (fst p)) (- pdf_flavor (snd p))%Z tau * value (sigma_qqll_partonic (tau * s) (fst p) (snd p) l wc)) pairs).
Proof.
  unfold dsigma_dtau_qqll. set (f := fun q1 q2 => 2 * L (pdf_flavor q1) (- pdf_flavor q2)%Z tau * value (sigma_qqll_partonic (tau * s) q1 q2 l wc)).
  rewrite (fold_ext _ (fun s q1 => fold_left (fun s q2 => s + f q1 q2) duscb s)).
  - rewrite (fold_pairs f). unfold f, pairs. ring.
  - intros x q1. apply fold_ext. intros y q2. unfold f. destruct (sigma_qqll_partonic (tau * s) q1 q2 l wc) as [v | e]; cbn [value]; [destruct (Req_EM_T v 0) as [-> | _]; ring | ring].
Qed.
Lemma sum_nonneg {A} (f : A -> R) l : (forall a, In a l -> 0 <= f a) -> 0 <= fold_right Rplus 0 (map f l).
Proof. induction l as [| a l IH]; intros H; cbn [map fold_right]; [lra|]. apply Rplus_le_le_0_compat; [apply H; now left | apply IH; intros b i; apply H; now right]. Qed.
Lemma sum_le {A} (f g : A -> R) l : (forall a, In a l -> f a <= g a) -> fold_right Rplus 0 (map f l) <= fold_right Rplus 0 (map g l).
Proof. induction l as [| a l IH]; intros H; cbn [map fold_right]; [lra|]. apply Rplus_le_compat; [apply H; now left | apply IH; intros b i; apply H; now right]. Qed.
Definition lumi_ok (L : Z -> Z -> R -> R) (a b : R) : Prop := forall i j t, a <= t <= b -> 0 <= L i j t.
Theorem C209_positive : forall L s tau l wc, 0 <= tau * s -> lumi_ok L tau tau -> 0 <= dsigma_dtau_qqll L s tau l wc.
Proof.
  intros L s tau l wc h HL'. rewrite dsig_is. apply sum_nonneg. intros [q1 q2] _. cbn [fst snd]. apply Rmult_le_pos; [apply Rmult_le_pos; [lra | apply HL'; lra]|].
  destruct (sigma_qqll_partonic (tau * s) q1 q2 l wc) as [v | e] eqn:E; cbn [value]; [eapply part_nonneg; eauto | lra].
Qed.
Print Assumptions C209_positive.
Lemma part_scalar d sh q1 q2 l c : 0 <= sh -> no_vector c -> value (sigma_qqll_partonic sh q1 q2 l (wceff_qqll_sm d sh)) <= value (sigma_qqll_partonic sh q1 q2 l (wc_add (wceff_qqll_sm d sh) c)).
Proof.
  intros h H. unfold sigma_qqll_partonic. destruct (fermion_indices q1) as [a i1], (fermion_indices q2) as [b i2]. destruct (udb a b); cbn [value]; [|lra].
  cbv zeta. pose proof PI_RGT_0. apply Rmult_le_compat_l; [apply Rdiv_le_0_compat; lra|]. unfold wc_add. rewrite !(H OVLL), !(H OVLR), !(H OVRL), !(H OVRR) by (cbn; tauto). unfold no. rewrite !Cplus_0_r.
  cbn [wceff_qqll_sm]. rewrite !Cplus_0_l, !Cmod_0.
  pose proof (pow2_ge_0 (Cmod (c OSRL a (lepton_index l) (lepton_index l) i1 i2))). pose proof (pow2_ge_0 (Cmod (c OSRR a (lepton_index l) (lepton_index l) i1 i2))). pose proof (pow2_ge_0 (Cmod (c OTRR a (lepton_index l) (lepton_index l) i1 i2))).
  pose proof (pow2_ge_0 (Cmod (c OSRL a (lepton_index l) (lepton_index l) i2 i1))). pose proof (pow2_ge_0 (Cmod (c OSRR a (lepton_index l) (lepton_index l) i2 i1))). pose proof (pow2_ge_0 (Cmod (c OTRR a (lepton_index l) (lepton_index l) i2 i1))). lra.
Qed.
(** *** integrability for continuous luminosities *)
Lemma cont_cmod (f : R -> C) (x : R) : continuous (fun t => fst (f t)) x -> continuous (fun t => snd (f t)) x -> continuous (fun t => Cmod (f t) ^ 2) x.
Proof.
  intros A B. apply (continuous_ext (fun t => fst (f t) * fst (f t) + snd (f t) * snd (f t))); [intros t; rewrite cmod_sq; match goal with |- ?u = ?v => change (@eq R u v) end; ring|].
  apply (continuous_plus (V := R_NormedModule)); apply (continuous_mult (K := R_AbsRing)); assumption.
Qed.
Definition regular (d : dpar) : Prop := p_mZ d <> 0 /\ p_tauZ d <> 0 /\ p_mW d <> 0 /\ p_tauW d <> 0.
Lemma den_ne (a w : R) : w <> 0 -> a ^ 2 + w ^ 2 <> 0. Proof. intros h. pose proof (pow2_ge_0 a). assert (0 < w ^ 2) by (apply pow2_gt_0; exact h). lra. Qed.
Lemma pole (g a w : R) : w <> 0 -> (RtoC g / (RtoC a + Ci * RtoC w))%C = (g * a / (a ^ 2 + w ^ 2), - g * w / (a ^ 2 + w ^ 2)).
Proof.
  intros hw. pose proof (den_ne a w hw) as N. unfold Cdiv, Cinv. cbn [fst snd RtoC Cplus Cmult Ci]. apply injective_projections; cbn [fst snd Cmult RtoC]; field; repeat split; try exact N.
  all: try (replace ((a + (0 * w - 1 * 0)) ^ 2 + (0 + (0 * 0 + 1 * w)) ^ 2) with (a ^ 2 + w ^ 2) by ring; exact N).
Qed.
Lemma cont_F d q Xq Xl s x (e : R) (c : C) : regular d -> x * s <> 0 -> continuous (fun t => Cmod (F_qqll_SM d q Xq Xl (t * s) * RtoC e + c)%C ^ 2) x.
Proof.
  intros (h1 & h2 & _) hx. unfold F_qqll_SM. cbv zeta.
  match goal with |- context [RtoC (?a * Qch q * ?b / _)] => set (A := a * Qch q * b) end.
  match goal with |- context [(RtoC (?a * ?b) / _)%C] => set (B := a * b) end.
  assert (hw : p_mZ d * (1 / p_tauZ d) <> 0) by (apply Rmult_integral_contrapositive_currified; [exact h1 | unfold Rdiv; rewrite Rmult_1_l; now apply Rinv_neq_0_compat]).
  generalize dependent (p_mZ d * (1 / p_tauZ d)). intros w hw.
  apply cont_cmod.
  - apply (continuous_ext (fun t => (A / (t * s) + B * (t * s - p_mZ d ^ 2) / ((t * s - p_mZ d ^ 2) ^ 2 + w ^ 2)) * e + fst c)).
    + intros t. rewrite (pole B (t * s - p_mZ d ^ 2) w hw). cbn [fst snd Cplus Cmult RtoC]. match goal with |- ?u = ?v => change (@eq R u v) end. ring.
    + apply (ex_derive_continuous (fun t => (A / (t * s) + B * (t * s - p_mZ d ^ 2) / ((t * s - p_mZ d ^ 2) ^ 2 + w ^ 2)) * e + fst c)). auto_derive. pose proof (den_ne (x * s - p_mZ d ^ 2) w hw) as N. split; [exact hx | split; [|exact I]]. intro E. apply N. rewrite <- E. ring.
  - apply (continuous_ext (fun t => (- B * w / ((t * s - p_mZ d ^ 2) ^ 2 + w ^ 2)) * e + snd c)).
    + intros t. rewrite (pole B (t * s - p_mZ d ^ 2) w hw). cbn [fst snd Cplus Cmult RtoC]. match goal with |- ?u = ?v => change (@eq R u v) end. ring.
    + apply (ex_derive_continuous (fun t => (- B * w / ((t * s - p_mZ d ^ 2) ^ 2 + w ^ 2)) * e + snd c)). auto_derive. pose proof (den_ne (x * s - p_mZ d ^ 2) w hw) as N. intro E. apply N. rewrite <- E. ring.
Qed.
Definition np_part (np : option wcd) : wcd := match np with Some c => c | None => fun _ _ _ _ _ _ => no end.
Definition integrand d L s l (np : option wcd) (tau : R) : R := dsigma_dtau_qqll L s tau l (match np with Some c => wc_add (wceff_qqll_sm d (tau * s)) c | None => wceff_qqll_sm d (tau * s) end).
Lemma add_zero (a : wcd) : forall o q i j k l, wc_add a (fun _ _ _ _ _ _ => no) o q i j k l = a o q i j k l.
Proof. intros. unfold wc_add, no. apply Cplus_0_r. Qed.
Lemma part_ext sh q1 q2 l a b : (forall o q i j k l, a o q i j k l = b o q i j k l) -> sigma_qqll_partonic sh q1 q2 l a = sigma_qqll_partonic sh q1 q2 l b.
Proof. intros H. unfold sigma_qqll_partonic. destruct (fermion_indices q1), (fermion_indices q2). destruct udb; [|reflexivity]. cbv zeta. now rewrite !H. Qed.
Lemma integrand_is d L s l np tau : integrand d L s l np tau = fold_right Rplus 0 (map (fun p => 2 * L (pdf_flavor (fst p)) (- pdf_flavor (snd p))%Z tau * value (sigma_qqll_partonic (tau * s) (fst p) (snd p) l (wc_add (wceff_qqll_sm d (tau * s)) (np_part np)))) pairs).
Proof.
  unfold integrand. rewrite dsig_is. f_equal. apply map_ext. intros [q1 q2]. cbn [fst snd]. do 2 f_equal. destruct np as [c |]; [reflexivity|]. apply part_ext. intros. symmetry. apply add_zero.
Qed.
Lemma part_cont d s q1 q2 l c x : regular d -> x * s <> 0 -> continuous (fun t => value (sigma_qqll_partonic (t * s) q1 q2 l (wc_add (wceff_qqll_sm d (t * s)) c))) x.
Proof.
  intros r hx. unfold sigma_qqll_partonic. destruct (fermion_indices q1) as [a i1], (fermion_indices q2) as [b i2]. destruct (udb a b); cbn [value]; [|apply continuous_const].
  cbv zeta. unfold wc_add. cbn [wceff_qqll_sm]. set (il := lepton_index l).
  set (K := 3 / 4 * Cmod (RtoC 0 + c OSRL a il il i1 i2)%C ^ 2 + 3 / 4 * Cmod (RtoC 0 + c OSRR a il il i1 i2)%C ^ 2 + 4 * Cmod (RtoC 0 + c OTRR a il il i1 i2)%C ^ 2
    + 3 / 4 * Cmod (RtoC 0 + c OSRL a il il i2 i1)%C ^ 2 + 3 / 4 * Cmod (RtoC 0 + c OSRR a il il i2 i1)%C ^ 2 + 4 * Cmod (RtoC 0 + c OTRR a il il i2 i1)%C ^ 2).
  pose (f1 := fun t => Cmod (F_qqll_SM d a HL HL (t * s) * RtoC (eye il il * eye i1 i2) + c OVLL a il il i1 i2)%C ^ 2). assert (k1 : continuous f1 x) by (apply cont_F; assumption).
  pose (f2 := fun t => Cmod (F_qqll_SM d a HR HL (t * s) * RtoC (eye il il * eye i1 i2) + c OVLR a il il i1 i2)%C ^ 2). assert (k2 : continuous f2 x) by (apply cont_F; assumption).
  pose (f3 := fun t => Cmod (F_qqll_SM d a HL HR (t * s) * RtoC (eye il il * eye i1 i2) + c OVRL a il il i1 i2)%C ^ 2). assert (k3 : continuous f3 x) by (apply cont_F; assumption).
  pose (f4 := fun t => Cmod (F_qqll_SM d a HR HR (t * s) * RtoC (eye il il * eye i1 i2) + c OVRR a il il i1 i2)%C ^ 2). assert (k4 : continuous f4 x) by (apply cont_F; assumption).
  apply (continuous_ext (fun t => t * s / (144 * PI) * (f1 t + f2 t + f3 t + f4 t + K))).
  - intros t. unfold K. change (Cmod (F_qqll_SM d a HL HL (t * s) * RtoC (eye il il * eye i1 i2) + c OVLL a il il i1 i2)%C ^ 2) with (f1 t). change (Cmod (F_qqll_SM d a HR HL (t * s) * RtoC (eye il il * eye i1 i2) + c OVLR a il il i1 i2)%C ^ 2) with (f2 t).
    change (Cmod (F_qqll_SM d a HL HR (t * s) * RtoC (eye il il * eye i1 i2) + c OVRL a il il i1 i2)%C ^ 2) with (f3 t). change (Cmod (F_qqll_SM d a HR HR (t * s) * RtoC (eye il il * eye i1 i2) + c OVRR a il il i1 i2)%C ^ 2) with (f4 t).
    generalize (f1 t) (f2 t) (f3 t) (f4 t) (t * s / (144 * PI)). intros. match goal with |- ?u = ?v => change (@eq R u v) end. ring.
  - clearbody f1 f2 f3 f4 K. apply (continuous_mult (K := R_AbsRing)); [apply (ex_derive_continuous (fun t => t * s / (144 * PI))); auto_derive; exact I|].
    apply (continuous_plus (V := R_NormedModule)); [|apply continuous_const]. apply (continuous_plus (V := R_NormedModule)); [|exact k4]. apply (continuous_plus (V := R_NormedModule)); [|exact k3]. apply (continuous_plus (V := R_NormedModule)); [exact k1 | exact k2].
Qed.
Lemma sum_cont {A} (f : A -> R -> R) l x : (forall a, continuous (f a) x) -> continuous (fun t => fold_right Rplus 0 (map (fun a => f a t) l)) x.
Proof. intros H. induction l as [| a l IH]; cbn [map fold_right]; [apply continuous_const | apply (continuous_plus (V := R_NormedModule)); [apply H | exact IH]]. Qed.
Definition lumi_cont (L : Z -> Z -> R -> R) (a b : R) : Prop := forall i j t, a <= t <= b -> continuous (L i j) t.
Lemma integrand_int d L s l np a b : regular d -> 0 < s -> 0 < a <= b -> lumi_cont L a b -> ex_RInt (integrand d L s l np) a b.
Proof.
  intros r hs hab HL'. apply (ex_RInt_continuous (V := R_CompleteNormedModule)). intros x hx. rewrite Rmin_left, Rmax_right in hx by lra.
  apply (continuous_ext (fun tau => fold_right Rplus 0 (map (fun p => 2 * L (pdf_flavor (fst p)) (- pdf_flavor (snd p))%Z tau * value (sigma_qqll_partonic (tau * s) (fst p) (snd p) l (wc_add (wceff_qqll_sm d (tau * s)) (np_part np)))) pairs))); [intros t; symmetry; apply integrand_is|].
  apply (sum_cont (fun p tau => 2 * L (pdf_flavor (fst p)) (- pdf_flavor (snd p))%Z tau * value (sigma_qqll_partonic (tau * s) (fst p) (snd p) l (wc_add (wceff_qqll_sm d (tau * s)) (np_part np))))).
  intros p. apply (continuous_mult (K := R_AbsRing)).
  - apply (continuous_mult (K := R_AbsRing)); [apply continuous_const | apply HL'; exact hx].
  - apply part_cont; [exact r|]. apply Rgt_not_eq, Rmult_lt_0_compat; lra.
Qed.
(** the cross section in a bin is not negative, and those of adjacent bins add *)
Definition bin_ok (d : dpar) (L : Z -> Z -> R -> R) (s qmin qmax : R) : Prop := regular d /\ 0 < s /\ 0 < qmin <= qmax /\ lumi_cont L (qmin ^ 2 / s) (qmax ^ 2 / s) /\ lumi_ok L (qmin ^ 2 / s) (qmax ^ 2 / s).
Lemma bin_limits s a b : 0 < s -> 0 < a <= b -> 0 < a ^ 2 / s <= b ^ 2 / s.
Proof. intros hs h. assert (0 < a ^ 2) by (apply pow2_gt_0; lra). split; [now apply Rdiv_lt_0_compat|]. apply Rmult_le_compat_r; [left; now apply Rinv_0_lt_compat | apply pow_incr; lra]. Qed.
Theorem C209_bins : forall d L s qmin q qmax l np, 0 < qmin <= q -> q <= qmax -> bin_ok d L s qmin qmax ->
  0 <= sigma_qqll_int d L s qmin qmax l np /\ sigma_qqll_int d L s qmin qmax l np = sigma_qqll_int d L s qmin q l np + sigma_qqll_int d L s q qmax l np.
Proof.
  intros d L s qmin q qmax l np h1 h2 (r & hs & hq & hc & hl). pose proof (bin_limits s qmin q hs h1) as b1. pose proof (bin_limits s q qmax hs ltac:(lra)) as b2.
  change (sigma_qqll_int d L s qmin qmax l np) with (RInt (integrand d L s l np) (qmin ^ 2 / s) (qmax ^ 2 / s)). change (sigma_qqll_int d L s qmin q l np) with (RInt (integrand d L s l np) (qmin ^ 2 / s) (q ^ 2 / s)). change (sigma_qqll_int d L s q qmax l np) with (RInt (integrand d L s l np) (q ^ 2 / s) (qmax ^ 2 / s)).
  split.
  - apply RI_pos; [lra | apply integrand_int; auto; lra|]. intros x hx. apply C209_positive; [apply Rmult_le_pos; lra | intros i j t ht; apply hl; lra].
  - apply RI_chasles; apply integrand_int; auto; try lra; intros i j t ht; apply hc; lra.
Qed.
Print Assumptions C209_bins.
(** the ratio is 1 without new physics and at least 1 with scalar and tensor operators only *)
Theorem C209_ratio : forall d L s qmin qmax l c, bin_ok d L s qmin qmax -> sigma_qqll_int d L s qmin qmax l None <> 0 ->
  ((forall o q i j k m, wceff_qqll_np c (p_V d) o q i j k m = no) -> R_sigma_qqll_int d L s qmin qmax l c = 1) /\
  ((forall f i j k m, In f [s_lq1; s_lq3; s_eu; s_ed; s_lu; s_ld; s_qe] -> f c i j k m = no) -> 1 <= R_sigma_qqll_int d L s qmin qmax l c).
Proof.
  intros d L s qmin qmax l c B N. pose proof B as (r & hs & hq & hc & hl). pose proof (bin_limits s qmin qmax hs ltac:(lra)) as b.
  assert (P : 0 < sigma_qqll_int d L s qmin qmax l None) by (destruct (proj1 (C209_bins d L s qmin qmin qmax l None ltac:(lra) ltac:(lra) B)) as [X | X]; [exact X | congruence]).
  unfold R_sigma_qqll_int. split.
  - intros H. replace (sigma_qqll_int d L s qmin qmax l (Some (wceff_qqll_np c (p_V d)))) with (sigma_qqll_int d L s qmin qmax l None); [field; exact N|].
    apply RI_ext; [lra|]. intros x _. rewrite !dsig_is. f_equal. apply map_ext. intros [q1 q2]. cbn [fst snd]. do 2 f_equal. apply part_ext. intros. unfold wc_add. rewrite H. unfold no. symmetry. apply Cplus_0_r.
  - intros H. apply Rle_div_r; [exact P|]. rewrite Rmult_1_l.
    change (sigma_qqll_int d L s qmin qmax l None) with (RInt (integrand d L s l None) (qmin ^ 2 / s) (qmax ^ 2 / s)). change (sigma_qqll_int d L s qmin qmax l (Some ?c)) with (RInt (integrand d L s l (Some c)) (qmin ^ 2 / s) (qmax ^ 2 / s)).
    apply RI_le; [lra | apply integrand_int; auto | apply integrand_int; auto|]. intros x hx. unfold integrand. rewrite !dsig_is. apply sum_le. intros [q1 q2] _. cbn [fst snd].
    apply Rmult_le_compat_l; [apply Rmult_le_pos; [lra | apply hl; lra]|]. apply part_scalar; [apply Rmult_le_pos; lra|].
    intros o q i j k m hi. cbn [In] in hi. assert (Z : forall f, In f [s_lq1; s_lq3; s_eu; s_ed; s_lu; s_ld; s_qe] -> forall i j k m, f c i j k m = no) by (intros f i0; intros; now apply H).
    destruct hi as [<- | [<- | [<- | [<- | []]]]]; destruct q; cbn [wceff_qqll_np]; unfold sum3; rewrite ?(Z s_lq1), ?(Z s_lq3), ?(Z s_eu), ?(Z s_ed), ?(Z s_lu), ?(Z s_ld), ?(Z s_qe) by (cbn; tauto); unfold no; ring.
Qed.
Print Assumptions C209_ratio.
(** the Standard Model: the same for all leptons and for quarks of the same charge; no pairs of different flavours *)
Theorem C209_sm : forall d L s qmin qmax, (forall l l', sigma_qqll_int d L s qmin qmax l None = sigma_qqll_int d L s qmin qmax l' None) /\
  (forall sh q1 q2 l, q1 <> q2 -> (charge_up q1 <-> charge_up q2) -> sigma_qqll_partonic sh q1 q2 l (wceff_qqll_sm d sh) = Ok 0) /\
  (forall sh l, sigma_qqll_partonic sh qu qu l (wceff_qqll_sm d sh) = sigma_qqll_partonic sh qc qc l (wceff_qqll_sm d sh) /\ sigma_qqll_partonic sh qd qd l (wceff_qqll_sm d sh) = sigma_qqll_partonic sh qs qs l (wceff_qqll_sm d sh)
    /\ sigma_qqll_partonic sh qs qs l (wceff_qqll_sm d sh) = sigma_qqll_partonic sh qb qb l (wceff_qqll_sm d sh)).
Proof.
  intros d L s qmin qmax. split; [|split].
  - intros l l'. unfold sigma_qqll_int. f_equal. apply FunctionalExtensionality.functional_extensionality. intros tau. rewrite !dsig_is.
    assert (E : forall sh q1 q2, sigma_qqll_partonic sh q1 q2 l (wceff_qqll_sm d sh) = sigma_qqll_partonic sh q1 q2 l' (wceff_qqll_sm d sh)).
    { intros. unfold sigma_qqll_partonic. destruct (fermion_indices q1), (fermion_indices q2). destruct (udb _ _); [|reflexivity]. cbv zeta. cbn [wceff_qqll_sm]. destruct l, l'; reflexivity. }
    f_equal. apply map_ext. intros [q1 q2]. cbn [fst snd]. now rewrite E.
  - intros sh q1 q2 l N H. unfold charge_up in H.
    assert (Z : forall a : C, (a * RtoC (1 * 0))%C = RtoC 0) by (intros; rewrite Rmult_0_r; apply Cmult_0_r).
    destruct q1, q2; try (exfalso; apply N; reflexivity); try (exfalso; destruct H as [A B']; solve [destruct (A (or_introl eq_refl)); discriminate | destruct (A (or_intror eq_refl)); discriminate | destruct (B' (or_introl eq_refl)); discriminate | destruct (B' (or_intror eq_refl)); discriminate]);
      unfold sigma_qqll_partonic; cbn [fermion_indices udb]; cbv zeta; f_equal; destruct l; cbn [wceff_qqll_sm lepton_index]; change (eye 0 0) with 1; change (eye 1 1) with 1; change (eye 2 2) with 1; change (eye 0 1) with 0; change (eye 1 0) with 0; change (eye 0 2) with 0; change (eye 2 0) with 0; change (eye 1 2) with 0; change (eye 2 1) with 0; rewrite !Z, !Cmod_0; ring.
  - intros sh l. repeat split; destruct l; reflexivity.
Qed.
Print Assumptions C209_sm.

(** ** C210: p p -> l nu, the transverse mass squared is u s = tau s (1 - c^2) with c the cosine of the angle between lepton and quark *)
(** the cross section between two values of the transverse mass is the integral over the corresponding angles (both signs of c) of the squared helicity amplitudes, summed over the flavours of the neutrino *)
Definition lnu_density (wc : wcc) (l : lep3) (i1 i2 nu : nat) (c : R) : R := let C o := wc o (lepton_index l) nu i1 i2 in
  3 / 8 * ((1 + c) ^ 2 * Cmod (C CV) ^ 2 + Cmod (C CSL) ^ 2 + Cmod (C CSR + RtoC (4 * c) * C CT)%C ^ 2).
Definition both_signs (f : R -> R) (c : R) : R := f c + f (- c).
Lemma lnu_poly wc l i1 i2 nu a b : let A o := Cmod (wc o (lepton_index l) nu i1 i2) ^ 2 in
  RInt (both_signs (lnu_density wc l i1 i2 nu)) a b = 3 / 4 * ((A CV + A CSL + A CSR) * (b - a) + (A CV + 16 * A CT) * (b ^ 3 - a ^ 3) / 3) /\ ex_RInt (both_signs (lnu_density wc l i1 i2 nu)) a b.
Proof.
  cbv zeta. assert (E : forall t, 3 / 4 * (Cmod (wc CV (lepton_index l) nu i1 i2) ^ 2 + Cmod (wc CSL (lepton_index l) nu i1 i2) ^ 2 + Cmod (wc CSR (lepton_index l) nu i1 i2) ^ 2) + 0 * t
      + 3 / 4 * (Cmod (wc CV (lepton_index l) nu i1 i2) ^ 2 + 16 * Cmod (wc CT (lepton_index l) nu i1 i2) ^ 2) * t ^ 2 = both_signs (lnu_density wc l i1 i2 nu) t).
  { intros t. unfold both_signs, lnu_density. cbv zeta. generalize (Cmod (wc CV (lepton_index l) nu i1 i2)) (Cmod (wc CSL (lepton_index l) nu i1 i2)) (wc CSR (lepton_index l) nu i1 i2) (wc CT (lepton_index l) nu i1 i2).
    intros v w [x x'] [y y']. rewrite !cmod_sq. cbn [fst snd Cplus Cmult RtoC]. field. }
  split.
  - rewrite <- (RInt_ext _ _ _ _ (fun t _ => E t)), int_quadratic. match goal with |- ?u = ?v => change (@eq R u v) end. field.
  - apply (ex_RInt_ext _ _ _ _ (fun t _ => E t)). apply (ex_RInt_continuous (V := R_CompleteNormedModule)). intros x _. apply (ex_derive_continuous (V := R_NormedModule)). auto_derive. exact I.
Qed.
Lemma lnu_int wc l i1 i2 nu a b : RInt (V := R_CompleteNormedModule) (both_signs (lnu_density wc l i1 i2 nu)) a b =
  3 / 4 * ((Cmod (wc CV (lepton_index l) nu i1 i2) ^ 2 + Cmod (wc CSL (lepton_index l) nu i1 i2) ^ 2 + Cmod (wc CSR (lepton_index l) nu i1 i2) ^ 2) * (b - a) + (Cmod (wc CV (lepton_index l) nu i1 i2) ^ 2 + 16 * Cmod (wc CT (lepton_index l) nu i1 i2) ^ 2) * (b ^ 3 - a ^ 3) / 3).
Proof. apply lnu_poly. Qed.
Definition cos_of (tau u : R) : R := sqrt (Rmax 0 (1 - u / tau)).
Lemma cos_sq tau u : 0 < tau -> u <= tau -> cos_of tau u = sqrt (1 - u / tau) /\ u = tau * (1 - sqrt (1 - u / tau) ^ 2).
Proof.
  intros h hu. assert (P : 0 <= 1 - u / tau) by (assert (u / tau <= 1) by (apply Rle_div_l; lra); lra). split; [unfold cos_of; now rewrite Rmax_right|].
  rewrite pow2_sqrt by exact P. field. lra.
Qed.
Lemma cos_zero tau u : 0 < tau -> tau <= u -> cos_of tau u = 0.
Proof. intros h hu. unfold cos_of. rewrite Rmax_left; [apply sqrt_0|]. assert (1 <= u / tau) by (apply Rle_div_r; lra). lra. Qed.
Theorem C210_transverse_mass : forall s tau umin umax i1 i2 l wc, 0 < tau -> umin <= tau -> umin <= umax ->
  let J nu := RInt (both_signs (lnu_density wc l i1 i2 nu)) (cos_of tau umax) (cos_of tau umin) in
  dsigma_dtau_qqlnu_partial s tau umin umax i1 i2 l wc = tau * s / (144 * PI) * (J 0%nat + J 1%nat + J 2%nat).
Proof.
  intros s tau umin umax i1 i2 l wc h hm h'. cbv beta zeta. rewrite !lnu_int. unfold dsigma_dtau_qqlnu_partial. cbv zeta. pose proof PI_RGT_0.
  destruct (cos_sq tau umin h hm) as (-> & e). revert e. generalize (sqrt (1 - umin / tau)). intros b ->. cbn [fold_left].
  destruct (Rlt_dec umax tau) as [X | X].
  - destruct (cos_sq tau umax h ltac:(lra)) as (-> & e). revert e. generalize (sqrt (1 - umax / tau)). intros a ->. field. lra.
  - rewrite (cos_zero tau umax h ltac:(lra)). field. lra.
Qed.
Print Assumptions C210_transverse_mass.
(** hence not negative, additive in bins of the transverse mass, and the total equals that of the neutral current with the same coefficients (without hermitian conjugate) *)
Lemma density_pos wc l i1 i2 nu c : 0 <= both_signs (lnu_density wc l i1 i2 nu) c.
Proof.
  assert (P : forall c, 0 <= lnu_density wc l i1 i2 nu c).
  { intros t. unfold lnu_density. cbv zeta. apply Rmult_le_pos; [lra|]. repeat apply Rplus_le_le_0_compat; [apply Rmult_le_pos; apply pow2_ge_0 | apply pow2_ge_0 | apply pow2_ge_0]. }
  apply Rplus_le_le_0_compat; apply P.
Qed.
Lemma cos_mono tau u v : 0 < tau -> u <= v -> cos_of tau v <= cos_of tau u.
Proof. intros h huv. apply sqrt_le_1_alt. apply Rle_max_compat_l. assert (u / tau <= v / tau) by (apply Rmult_le_compat_r; [left; now apply Rinv_0_lt_compat | exact huv]). lra. Qed.
Theorem C210_bins : forall s tau umin u umax i1 i2 l wc, 0 <= s -> 0 < tau -> umin <= u -> u <= umax -> u <= tau ->
  0 <= dsigma_dtau_qqlnu_partial s tau umin umax i1 i2 l wc /\
  dsigma_dtau_qqlnu_partial s tau umin umax i1 i2 l wc = dsigma_dtau_qqlnu_partial s tau umin u i1 i2 l wc + dsigma_dtau_qqlnu_partial s tau u umax i1 i2 l wc.
Proof.
  intros s tau umin u umax i1 i2 l wc hs h h1 h2 h3. rewrite !C210_transverse_mass by lra. cbv beta zeta. pose proof PI_RGT_0. split.
  - apply Rmult_le_pos; [apply Rdiv_le_0_compat; [apply Rmult_le_pos; lra | lra]|].
    repeat apply Rplus_le_le_0_compat; (apply RI_pos; [apply cos_mono; lra | apply lnu_poly | intros; apply density_pos]).
  - rewrite !lnu_int. unfold Rdiv. ring.
Qed.
Print Assumptions C210_bins.
Theorem C210_total : forall s tau umax i1 i2 l wc, 0 < tau <= umax -> let A o nu := Cmod (wc o (lepton_index l) nu i1 i2) ^ 2 in let T nu := A CV nu + 3 / 4 * A CSL nu + 3 / 4 * A CSR nu + 4 * A CT nu in
  dsigma_dtau_qqlnu_partial s tau 0 umax i1 i2 l wc = tau * s / (144 * PI) * (T 0%nat + T 1%nat + T 2%nat).
Proof.
  intros s tau umax i1 i2 l wc h. cbv beta zeta. rewrite C210_transverse_mass by lra. cbv beta zeta. rewrite !lnu_int, (cos_zero tau umax) by lra.
  replace (cos_of tau 0) with 1; [pose proof PI_RGT_0; field; lra|]. unfold cos_of. rewrite Rmax_right; replace (1 - 0 / tau) with 1 by (field; lra); [now rewrite sqrt_1 | lra].
Qed.
Print Assumptions C210_total.
(** the Standard Model: only the neutrino of the same flavour, the square of the CKM element, the same for all leptons *)
Theorem C210_sm : forall d s tau umax i1 i2 l, (i1 < 3)%nat -> (i2 < 3)%nat -> 0 < tau <= umax ->
  dsigma_dtau_qqlnu_partial s tau 0 umax i1 i2 l (wceff_qqlnu_sm d (tau * s)) = tau * s / (144 * PI) * (Cmod (p_V d i1 i2) ^ 2 * Cmod (F_qqlnu_SM d (tau * s)) ^ 2).
Proof.
  intros d s tau umax i1 i2 l H1 H2 h. rewrite C210_total by exact h. cbv beta zeta. f_equal.
  assert (E : forall nu, Cmod (wceff_qqlnu_sm d (tau * s) CV (lepton_index l) nu i1 i2) ^ 2 = eye (lepton_index l) nu ^ 2 * (Cmod (p_V d i1 i2) ^ 2 * Cmod (F_qqlnu_SM d (tau * s)) ^ 2)).
  { intros nu. replace (wceff_qqlnu_sm d (tau * s) CV (lepton_index l) nu i1 i2) with (RtoC (eye (lepton_index l) nu) * (p_V d i1 i2 * F_qqlnu_SM d (tau * s)))%C.
    - rewrite !Cmod_mult, !Rpow_mult_distr, Cmod_R, <- !Rsqr_pow2, <- Rsqr_abs. ring.
    - cbn [wceff_qqlnu_sm]. unfold sum3. rewrite !RtoC_mult. generalize (F_qqlnu_SM d (tau * s)) (RtoC (eye (lepton_index l) nu)). intros F e.
      destruct i2 as [| [| [| i2]]]; [| | | exfalso; Lia.lia]; unfold eye; cbn [Nat.eqb]; ring. }
  rewrite !E. cbn [wceff_qqlnu_sm]. rewrite Cmod_0. destruct l; unfold eye; cbn [lepton_index Nat.eqb]; ring.
Qed.
Print Assumptions C210_sm.

(** ** non-vacuity *)
Example C209_bin_meets : let d := Dpar 91 (1 / 2) (23 / 100) (1 / 128) 80 (1 / 2) (fun _ _ => RtoC 1) in bin_ok d (fun _ _ _ => 1) 1 (1 / 10) (1 / 2) /\ (charge_up qu <-> charge_up qc) /\ ~ (charge_up qu <-> charge_up qd).
Proof.
  cbv zeta. split; [|split].
  - split; [repeat split; cbn; lra|]. split; [lra|]. split; [lra|]. split; [intros i j t _; apply continuous_const | intros i j t _; lra].
  - unfold charge_up. tauto.
  - unfold charge_up. intros [H _]. destruct (H (or_introl eq_refl)); discriminate.
Qed.
Example C210_bin_meets : let tau := 1 / 100 in 0 < tau <= 1 / 4 /\ 1 / 400 <= 1 / 200 /\ 1 / 200 <= 1 / 4 /\ 1 / 200 <= tau.
Proof. cbv zeta. lra. Qed.
