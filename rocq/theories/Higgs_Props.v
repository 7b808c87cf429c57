(** * Theorems about Higgs signal strengths, e e -> W W, neutrino tridents and magnetic moments (C164 - C168) *)
From Coq Require Import Reals List Lra Lia String ZArith.
From Coquelicot Require Import Coquelicot.
From Verif Require Import Base EW_Model EW_Spec EW_Proofs EW_Proofs2.
Import ListNotations.
Local Open Scope R_scope.

Definition lsum (l : list (R * C)) : C := fold_right (fun rc s => (RtoC (fst rc) * snd rc + s)%C) (RtoC 0) l.
Lemma lin_is l : lin l = 1 + 1000000 * fst (lsum l). Proof. reflexivity. Qed.
Definition conjwc (c : wcs) : wcs := fun k => Cconj (c k).
Lemma fst_div2 (z : C) : fst (z / RtoC 2)%C = fst z / 2. Proof. rewrite Cdiv_r by lra. cbn. field. Qed.
Lemma fst_div4 (z : C) : fst (z / RtoC 4)%C = fst z / 4. Proof. rewrite Cdiv_r by lra. cbn. field. Qed.
Lemma fst_plus (a b : C) : fst (a + b)%C = fst a + fst b. Proof. reflexivity. Qed.
Lemma fst_minus (a b : C) : fst (a - b)%C = fst a - fst b. Proof. reflexivity. Qed.
Lemma fst_smul (r : R) (z : C) : fst (RtoC r * z)%C = r * fst z. Proof. cbn. ring. Qed.
Lemma fst_0 : fst (RtoC 0) = 0. Proof. reflexivity. Qed.
Ltac prep := rewrite ?lin_is; unfold lsum, gfc; cbn [fold_right fst snd]; rewrite ?fst_plus, ?fst_smul, ?fst_minus, ?fst_div2, ?fst_div4.
Ltac fs := repeat (rewrite ?fst_plus, ?fst_smul, ?fst_minus, ?fst_div2, ?fst_div4, ?fst_0).

(** every production and decay mode is 1 in the SM, adds up the effects of different coefficients, is proportional to their size and depends on real parts only *)
Definition linear_in_re (f : wcs -> R) : Prop :=
  f nonp = 1 /\ (forall c d, f (plus c d) - 1 = (f c - 1) + (f d - 1)) /\ (forall t c, f (scale t c) - 1 = t * (f c - 1)) /\ (forall c, f (conjwc c) = f c).
Ltac linear := refine (conj _ (conj _ (conj _ _))); intros; rewrite !lin_is; unfold lsum, gfc; cbn [fold_right fst snd]; unfold plus, scale, conjwc, nonp; fs;
  unfold Cconj; cbn [fst]; rewrite ?fst_0; unfold Rdiv; ring.
Lemma avg_linear (a b : R) (f g : wcs -> R) : a + b <> 0 -> linear_in_re f -> linear_in_re g -> linear_in_re (fun c => (a * (1 + (f c - 1)) + b * (1 + (g c - 1))) / (a + b)).
Proof.
  intros H (f1 & f2 & f3 & f4) (g1 & g2 & g3 & g4). refine (conj _ (conj _ (conj _ _))); intros.
  - rewrite f1, g1. field. exact H.
  - rewrite f2, g2. field. exact H.
  - rewrite f3, g3. field. exact H.
  - rewrite f4, g4. reflexivity.
Qed.
Lemma prod_linear x : linear_in_re (f_prod x).
Proof.
  assert (W : linear_in_re hw) by (unfold hw; linear). assert (Zz : linear_in_re hz) by (unfold hz; linear).
  destruct x; cbn [f_prod]; try assumption.
  - unfold ggF. linear.
  - apply (avg_linear (1380 / 1000) (8696 / 10000)); [lra | exact W | exact Zz].
  - unfold tth. linear.
  - unfold vv_h. linear.
Qed.
Lemma dec_linear y : linear_in_re (f_dec y).
Proof.
  assert (W : linear_in_re h_ww) by (unfold h_ww; linear). assert (Zz : linear_in_re h_zz) by (unfold h_zz; linear).
  destruct y; cbn [f_dec]; try assumption; [unfold h_bb | unfold h_cc | unfold h_tautau | unfold h_mumu | | unfold h_zga | unfold h_gaga]; [linear.. | | linear | linear].
  apply (avg_linear BR_SM_WW BR_SM_ZZ); [unfold BR_SM_WW, BR_SM_ZZ; lra | exact W | exact Zz].
Qed.
Lemma gg_linear : linear_in_re h_gg. Proof. unfold h_gg. linear. Qed.

(** C164 *)
Theorem C164_linear : (forall x, linear_in_re (f_prod x)) /\ (forall y, linear_in_re (f_dec y)) /\ linear_in_re h_gg.
Proof. exact (conj prod_linear (conj dec_linear gg_linear)). Qed.
Print Assumptions C164_linear.

(** relations between modes: VH and VV lie between W and Z; gluon fusion and the decay to gluons agree up to the coefficient of G G H H; fermions differ only
    by their own Yukawa coefficient *)
Theorem C164_relations : forall c,
  Rmin (hw c) (hz c) <= hv c <= Rmax (hw c) (hz c) /\ Rmin (h_ww c) (h_zz c) <= h_vv c <= Rmax (h_ww c) (h_zz c)
  /\ (c phiG = RtoC 0 -> ggF c = h_gg c)
  /\ (c (dphi 3 3) = RtoC 0 -> c (uphi 2 2) = RtoC 0 -> h_bb c = h_cc c)
  /\ (c (dphi 3 3) = RtoC 0 -> c (ephi 3 3) = RtoC 0 -> h_bb c = h_tautau c)
  /\ (c (ephi 2 2) = RtoC 0 -> c (ephi 3 3) = RtoC 0 -> h_mumu c = h_tautau c).
Proof.
  assert (A : forall a b x y : R, 0 < a -> 0 < b -> Rmin x y <= (a * (1 + (x - 1)) + b * (1 + (y - 1))) / (a + b) <= Rmax x y).
  { intros a b x y Ha Hb. assert (E : (a * (1 + (x - 1)) + b * (1 + (y - 1))) / (a + b) * (a + b) = a * x + b * y) by (field; lra).
    set (m := (a * (1 + (x - 1)) + b * (1 + (y - 1))) / (a + b)) in *. unfold Rmin, Rmax.
    destruct (Rle_dec x y); split; apply (Rmult_le_reg_r (a + b)); try lra; rewrite E; nra. }
  intro c. refine (conj _ (conj _ (conj _ (conj _ (conj _ _))))).
  - apply A; lra.
  - apply A; unfold BR_SM_WW, BR_SM_ZZ; lra.
  - intro H. unfold ggF, h_gg. rewrite H. rewrite !lin_is. unfold lsum. cbn [fold_right fst snd]. fs. ring.
  - intros H1 H2. unfold h_bb, h_cc. rewrite H1, H2, !lin_is. unfold lsum. cbn [fold_right fst snd]. fs. ring.
  - intros H1 H2. unfold h_bb, h_tautau. rewrite H1, H2, !lin_is. unfold lsum. cbn [fold_right fst snd]. fs. ring.
  - intros H1 H2. unfold h_mumu, h_tautau. rewrite H1, H2, !lin_is. unfold lsum. cbn [fold_right fst snd]. fs. ring.
Qed.
Print Assumptions C164_relations.

(** every production and decay mode, and the width, is invariant under the field redefinitions up to the accuracy of the published numbers: not claimed.  The width: 1 in
    the SM, changes with the SM branching fractions times the changes of the partial widths, plus a non-negative contribution of light quarks *)
Theorem C164_width : forall c GF, 0 < GF ->
  Gamma_h nonp GF = 1
  /\ (exists q, 0 <= q /\ Gamma_h c GF = 1 + 0.5807 * (h_bb c - 1) + 0.2154 * (h_ww c - 1) + 0.02643 * (h_zz c - 1) + 0.08179 * (h_gg c - 1) + 0.06256 * (h_tautau c - 1) + q
       /\ (q = 0 <-> (forall i, In i [1; 2]%nat -> c (uphi i i) = RtoC 0 /\ c (dphi i i) = RtoC 0))).
Proof.
  assert (Q : forall c GF k, 0 < GF -> 0 <= Gamma_rel_ff (y_eff c GF k) 3 / Gamma_rel_SM /\ (Gamma_rel_ff (y_eff c GF k) 3 / Gamma_rel_SM = 0 <-> c k = RtoC 0)).
  { intros c GF k G. assert (0 < Gamma_rel_SM) by (unfold Gamma_rel_SM; lra). pose proof PI_RGT_0 as hp.
    assert (E : Gamma_rel_ff (y_eff c GF k) 3 / Gamma_rel_SM = (3 / (8 * PI) / Gamma_rel_SM * (1 / GF / 2) ^ 2) * Cmod (c k) ^ 2).
    { unfold Gamma_rel_ff, y_eff. rewrite Cmod_mult, Cmod_R. rewrite Rpow_mult_distr, <- (pow2_abs (1 / GF / 2)). set (m := Rabs (1 / GF / 2) ^ 2). field. lra. }
    assert (P : 0 < 3 / (8 * PI) / Gamma_rel_SM * (1 / GF / 2) ^ 2).
    { apply Rmult_lt_0_compat; [apply Rdiv_lt_0_compat; [apply Rdiv_lt_0_compat; lra | assumption]|]. apply pow_lt. unfold Rdiv. rewrite Rmult_1_l.
      apply Rmult_lt_0_compat; [apply Rinv_0_lt_compat; exact G | lra]. }
    rewrite E. split; [apply Rmult_le_pos; [lra | apply mod_pos]|]. split.
    - intro Z. apply Rmult_integral in Z. destruct Z as [Z | Z]; [lra|]. apply Cmod_eq_0. replace (Cmod (c k) ^ 2) with (Cmod (c k) * Cmod (c k)) in Z by ring.
      apply Rmult_integral in Z. tauto.
    - intros ->. rewrite Cmod0. ring. }
  intros c GF G.
  assert (F : forall d, Gamma_h d GF = 1 + 0.5807 * (h_bb d - 1) + 0.2154 * (h_ww d - 1) + 0.02643 * (h_zz d - 1) + 0.08179 * (h_gg d - 1) + 0.06256 * (h_tautau d - 1)
     + (Gamma_rel_ff (y_eff d GF (uphi 1 1)) 3 / Gamma_rel_SM + Gamma_rel_ff (y_eff d GF (uphi 2 2)) 3 / Gamma_rel_SM
        + Gamma_rel_ff (y_eff d GF (dphi 1 1)) 3 / Gamma_rel_SM + Gamma_rel_ff (y_eff d GF (dphi 2 2)) 3 / Gamma_rel_SM)).
  { intro d. unfold Gamma_h, BR_SM_bb, BR_SM_WW, BR_SM_ZZ, BR_SM_gg, BR_SM_tautau. cbn [map fold_right]. set (a := h_bb d). set (b := h_ww d). set (e := h_zz d). set (f := h_gg d). set (g := h_tautau d). lra. }
  split.
  - rewrite F.
    pose proof (proj1 (dec_linear Dbb)) as e1. pose proof (proj1 (dec_linear Dww)) as e2. pose proof (proj1 (dec_linear Dzz)) as e3. pose proof (proj1 (dec_linear Dtautau)) as e4. pose proof (proj1 gg_linear) as e5.
    cbn [f_dec] in e1, e2, e3, e4. rewrite e1, e2, e3, e4, e5.
    rewrite !(proj2 (proj2 (Q nonp GF _ G))) by reflexivity. lra.
  - eexists. refine (conj _ (conj (F c) _)).
    + generalize (proj1 (Q c GF (uphi 1 1) G)) (proj1 (Q c GF (uphi 2 2) G)) (proj1 (Q c GF (dphi 1 1) G)) (proj1 (Q c GF (dphi 2 2) G)). lra.
    + destruct (Q c GF (uphi 1 1) G) as [a1 b1]. destruct (Q c GF (uphi 2 2) G) as [a2 b2]. destruct (Q c GF (dphi 1 1) G) as [a3 b3]. destruct (Q c GF (dphi 2 2) G) as [a4 b4].
      split.
      * intros Z i [<- | [<- | []]]; split; [apply b1 | apply b3 | apply b2 | apply b4]; lra.
      * intro Z. destruct (Z 1%nat ltac:(cbn; tauto)) as [z1 z3]. destruct (Z 2%nat ltac:(cbn; tauto)) as [z2 z4].
        rewrite (proj2 b1 z1), (proj2 b2 z2), (proj2 b3 z3), (proj2 b4 z4). ring.
Qed.
Print Assumptions C164_width.
Example C164_width_meets : (fun k => match k with uphi 1 1 => Ci | _ => RtoC 0 end) (uphi 1 1) <> RtoC 0 :> C.
Proof. intro H. apply (f_equal snd) in H. cbn in H. lra. Qed.

(** signal strengths: 1 in the SM; production times decay over width; the observables have different names *)
Theorem C164_strength : forall GF, 0 < GF -> forall c x y,
  higgs_signalstrength GF nonp x y = 1 /\ higgs_signalstrength GF c x y = f_prod x c * f_dec y c / Gamma_h c GF
  /\ (forall x' y', higgs_name x y = higgs_name x' y' -> x = x' /\ y = y').
Proof.
  intros GF G c x y. refine (conj _ (conj eq_refl _)).
  - unfold higgs_signalstrength. rewrite (proj1 (prod_linear x)), (proj1 (dec_linear y)), (proj1 (C164_width c GF G)). field.
  - intros x' y' H. destruct x, x', y, y'; cbn in H; try discriminate; split; reflexivity.
Qed.
Print Assumptions C164_strength.

(** C165: a signal strength is a ratio of rates, but the linearised expressions can be negative *)
Theorem C165_refuted : ~ (forall GF c x y, 0 < GF -> 0 <= higgs_signalstrength GF c x y).
Proof.
  intro H. specialize (H 1 (fun k => match k with kG => RtoC (-1) | _ => RtoC 0 end) Ptth Dbb ltac:(lra)).
  unfold higgs_signalstrength in H. cbn [f_prod f_dec] in H.
  set (c := fun k => match k with kG => RtoC (-1) | _ => RtoC 0 end) in *.
  assert (Et : tth c = 1 + 1000000 * (146 / 1000 * -1)).
  { unfold tth. rewrite lin_is. unfold lsum, gfc, c. cbn [fold_right fst snd]. fs. cbn [fst RtoC]. field. }
  assert (Eb : h_bb c = 1) by (unfold h_bb; rewrite lin_is; unfold lsum, gfc, c; cbn [fold_right fst snd]; fs; cbn [fst RtoC]; field).
  assert (Ew : h_ww c = 1) by (unfold h_ww; rewrite lin_is; unfold lsum, gfc, c; cbn [fold_right fst snd]; fs; cbn [fst RtoC]; field).
  assert (Ez : h_zz c = 1) by (unfold h_zz; rewrite lin_is; unfold lsum, gfc, c; cbn [fold_right fst snd]; fs; cbn [fst RtoC]; field).
  assert (Eg : h_gg c = 1) by (unfold h_gg; rewrite lin_is; unfold lsum, gfc, c; cbn [fold_right fst snd]; fs; cbn [fst RtoC]; field).
  assert (El : h_tautau c = 1) by (unfold h_tautau; rewrite lin_is; unfold lsum, gfc, c; cbn [fold_right fst snd]; fs; cbn [fst RtoC]; field).
  destruct (C164_width c 1 ltac:(lra)) as [_ (q & q0 & Eq & Hq)]. rewrite Et, Eb in H. rewrite Eq, Eb, Ew, Ez, Eg, El in H.
  assert (q = 0) by (apply Hq; intros i _; split; reflexivity). subst q. lra.
Qed.
Print Assumptions C165_refuted.

(** C166: the ratio of the e e -> W W cross section to the SM: ValueError at energies other than the ten published ones, otherwise linear *)
Definition energies10 : list Z := [1613; 1721; 1827; 1886; 1916; 1955; 1995; 2016; 2049; 2066]%Z.
Theorem C166_energies : forall c E, (forall v, ee_WW c E = Ok v -> In E energies10) /\ (In E energies10 -> exists v, ee_WW c E = Ok v) /\ (~ In E energies10 -> ee_WW c E = Err ValueError).
Proof.
  intros c E. assert (D : In E energies10 \/ find (fun r => Z.eqb (fst r) E) ee_rows = None).
  { destruct (In_dec Z.eq_dec E energies10) as [I | I]; [left; exact I | right].
    destruct (find _ ee_rows) as [r|] eqn:F; [|reflexivity]. exfalso. apply find_some in F. destruct F as [Hin Heq]. apply Z.eqb_eq in Heq. subst E. apply I.
    change energies10 with (map fst ee_rows). apply in_map. exact Hin. }
  unfold ee_WW. refine (conj _ (conj _ _)).
  - intros v. destruct D as [D | D]; [intro; exact D|]. rewrite D. discriminate.
  - intro I. unfold energies10 in I. repeat destruct I as [<- | I]; try contradiction; cbn [find ee_rows fst Z.eqb Pos.eqb]; eexists; reflexivity.
  - intro I. destruct D as [D | D]; [contradiction|]. rewrite D. reflexivity.
Qed.
Print Assumptions C166_energies.
Definition ok_lin (f : wcs -> result R) : Prop := exists g, linear_in_re g /\ forall c, f c = Ok (g c).
Theorem C166_linear : forall E, In E energies10 -> ok_lin (fun c => ee_WW c E).
Proof.
  intros E I. unfold energies10 in I. repeat destruct I as [<- | I]; try contradiction; eexists; (split; [|intro c; unfold ee_WW; cbn [find ee_rows fst Z.eqb Pos.eqb]; reflexivity]); cbn [combine map ee_keys]; linear.
Qed.
Print Assumptions C166_linear.
(** coefficients that do not occur at any energy *)
Theorem C166_keys : forall c d E, (forall k, In k [kW; phiWB; phiD; phil3 1 1; phil3 2 2; ll_1221; phil1 1 1; phie 1 1] -> c k = d k) -> ee_WW c E = ee_WW d E.
Proof.
  intros c d E H. unfold ee_WW. destruct (find _ ee_rows) as [[e r]|]; [|reflexivity]. f_equal. f_equal. f_equal. apply map_ext_in. intros k Hk. apply H. exact Hk.
Qed.
Print Assumptions C166_keys.

(** C167: documented as normalised to the SM, but without new physics the differential cross section of the first energy is 0.702 and 5.434 in the outermost bins *)
Theorem C167_refuted : ~ (forall b, ee_WW_diff_18266 nonp b = 1) /\ ee_WW_diff_18266 nonp false = 0.702 /\ ee_WW_diff_18266 nonp true = 5.434.
Proof.
  assert (E : ee_WW_diff_18266 nonp false = 0.702 /\ ee_WW_diff_18266 nonp true = 5.434).
  { unfold ee_WW_diff_18266, nonp. cbn [fold_right fst snd]. split; fs; cbn [fst RtoC]; lra. }
  split; [|exact E]. intro H. specialize (H true). lra.
Qed.
Print Assumptions C167_refuted.

(** C168: neutrino tridents and magnetic moments *)
Definition none_nu : nuf -> C := fun _ => RtoC 0.
Theorem C168_trident : forall s2w LL LR,
  R_trident s2w none_nu none_nu = 1 /\ 0 <= R_trident s2w LL LR
  /\ (forall LL' LR', LL' Nm = LL Nm -> LR' Nm = LR Nm -> LL' Ne = RtoC 0 -> LR' Ne = RtoC 0 -> LL' Nt = RtoC 0 -> LR' Nt = RtoC 0 -> R_trident s2w LL' LR' <= R_trident s2w LL LR)
  /\ (** tree-level W and Z exchange: left-handed coupling 1/2 + s2w, right-handed s2w *)
     (LL Ne = RtoC 0 -> LR Ne = RtoC 0 -> LL Nt = RtoC 0 -> LR Nt = RtoC 0 ->
       R_trident s2w LL LR = (2 * Cmod (RtoC (1 / 2 + s2w) - LL Nm)%C ^ 2 + 2 * Cmod (RtoC s2w - LR Nm)%C ^ 2) / (1 / 2 + 2 * s2w + 4 * s2w ^ 2)).
Proof.
  intros s2w LL LR.
  assert (P : 0 < Rabs (1 / 2) ^ 2 + Rabs (1 / 2 + 2 * s2w) ^ 2) by (rewrite !pow2_abs; nra).
  assert (E : forall L R', R_trident s2w L R' * (Rabs (1 / 2) ^ 2 + Rabs (1 / 2 + 2 * s2w) ^ 2)
    = 2 * Cmod (RtoC (1 / 2 + s2w) - L Nm)%C ^ 2 + 2 * Cmod (RtoC s2w - R' Nm)%C ^ 2 + 2 * Cmod (L Ne) ^ 2 + 2 * Cmod (R' Ne) ^ 2 + 2 * Cmod (L Nt) ^ 2 + 2 * Cmod (R' Nt) ^ 2).
  { intros L R'. unfold R_trident. cbv zeta. rewrite !msq. destruct (L Nm) as [a b], (R' Nm) as [c d], (L Ne) as [e f], (R' Ne) as [g h], (L Nt) as [i j], (R' Nt) as [k l].
    cbn [fst snd RtoC Cplus Cminus Copp]. field. lra. }
  assert (Ed : Rabs (1 / 2) ^ 2 + Rabs (1 / 2 + 2 * s2w) ^ 2 = 1 / 2 + 2 * s2w + 4 * s2w ^ 2) by (rewrite !pow2_abs; field).
  refine (conj _ (conj _ (conj _ _))).
  - apply (Rmult_eq_reg_r (Rabs (1 / 2) ^ 2 + Rabs (1 / 2 + 2 * s2w) ^ 2)); [|lra]. rewrite E. unfold none_nu. rewrite !Cmod0, !msq, Ed. cbn [fst snd RtoC Cplus Cminus Copp]. field.
  - apply (Rmult_le_reg_r (Rabs (1 / 2) ^ 2 + Rabs (1 / 2 + 2 * s2w) ^ 2)); [exact P|]. rewrite E, Rmult_0_l.
    generalize (mod_pos (RtoC (1 / 2 + s2w) - LL Nm)%C) (mod_pos (RtoC s2w - LR Nm)%C) (mod_pos (LL Ne)) (mod_pos (LR Ne)) (mod_pos (LL Nt)) (mod_pos (LR Nt)). lra.
  - intros L R' h1 h2 h3 h4 h5 h6. apply (Rmult_le_reg_r (Rabs (1 / 2) ^ 2 + Rabs (1 / 2 + 2 * s2w) ^ 2)); [exact P|]. rewrite !E, h1, h2, h3, h4, h5, h6, !Cmod0.
    generalize (mod_pos (LL Ne)) (mod_pos (LR Ne)) (mod_pos (LL Nt)) (mod_pos (LR Nt)). lra.
  - intros h3 h4 h5 h6. apply (Rmult_eq_reg_r (Rabs (1 / 2) ^ 2 + Rabs (1 / 2 + 2 * s2w) ^ 2)); [|lra]. rewrite E, h3, h4, h5, h6, !Cmod0, Ed. field. nra.
Qed.
Print Assumptions C168_trident.
(** the anomalous magnetic moment: the SM value without new physics, a shift proportional to m^2 and to the real part of the dipole coefficient *)
Theorem C168_al : forall GF m aSM C7,
  al GF m aSM (RtoC 0) = aSM /\ al GF m aSM C7 - aSM = fst C7 * (al GF m aSM (RtoC 1) - aSM) /\ al GF m aSM (Cconj C7) = al GF m aSM C7
  /\ (m <> 0 -> 0 < GF -> aSM < al GF m aSM C7 <-> 0 < fst C7)
  /\ (forall m', m <> 0 -> al GF m' 0 C7 = (m' / m) ^ 2 * al GF m 0 C7).
Proof.
  intros GF m aSM C7. pose proof PI_RGT_0 as hp. pose proof s2pos as h2. unfold al. refine (conj _ (conj _ (conj _ (conj _ _)))).
  - cbn [fst RtoC]. ring.
  - cbn [fst RtoC]. ring.
  - reflexivity.
  - intros Hm G. assert (0 < m ^ 2 * GF / sqrt 2 / PI ^ 2).
    { apply Rdiv_lt_0_compat; [apply Rdiv_lt_0_compat; [apply Rmult_lt_0_compat; [nra | exact G] | exact h2] | apply pow_lt; exact hp]. }
    set (K := m ^ 2 * GF / sqrt 2 / PI ^ 2) in *. split; intro I; nra.
  - intros m' Hm. field. lra.
Qed.
Print Assumptions C168_al.

(** the Fermi constant measured in muon decay: apart from h -> W W (published rounded coefficients), ll_1221, phil3_11 and phil3_22 enter production and decay only through the
    shift of the Fermi constant, proportional to ll_1221 / 2 - phil3_11 - phil3_22 *)
Theorem C164_muon_decay : forall c d : wcs,
  (forall k, ~ In k [ll_1221; phil3 1 1; phil3 2 2] -> c k = d k) ->
  fst (c ll_1221) / 2 - fst (c (phil3 1 1)) - fst (c (phil3 2 2)) = fst (d ll_1221) / 2 - fst (d (phil3 1 1)) - fst (d (phil3 2 2)) ->
  (forall x, f_prod x c = f_prod x d) /\ (forall y, y <> Dww -> y <> Dvv -> f_dec y c = f_dec y d) /\ h_gg c = h_gg d.
Proof.
  intros c d K G.
  assert (E : forall k, In k [phiB; phiW; phiWB; phiBox; phiD; phiG; uG_33; kG; uphi 3 3; uphi 2 2; dphi 3 3; dphi 2 2; ephi 3 3; ephi 2 2; phiq1 1 1; phiq1 2 2; phiq3 1 1; phiq3 2 2;
     phiu 1 1; phiu 2 2; phid 1 1; phid 2 2] -> c k = d k).
  { intros k Hk. apply K. intros [<- | [<- | [<- | []]]]; repeat (destruct Hk as [Hk | Hk]; [discriminate Hk|]); exact Hk. }
  assert (g : fst (gfc c) = fst (gfc d)) by (unfold gfc; fs; lra).
  assert (L : forall l l' : list (R * C), map (fun p => fst p * fst (snd p)) l = map (fun p => fst p * fst (snd p)) l' -> lin l = lin l').
  { intro l. assert (Q : forall m, fst (lsum m) = fold_right Rplus 0 (map (fun p => fst p * fst (snd p)) m)).
    { induction m as [|p m IH]; [reflexivity|]. unfold lsum in *. cbn [fold_right map]. rewrite fst_plus, fst_smul, IH. reflexivity. }
    intros l' H. rewrite !lin_is, !Q, H. reflexivity. }
  assert (W : hw c = hw d) by (unfold hw; apply L; cbn [map fst snd]; rewrite g, !E by (cbn; tauto); reflexivity).
  assert (Zz : hz c = hz d) by (unfold hz; apply L; cbn [map fst snd]; rewrite g, !E by (cbn; tauto); reflexivity).
  refine (conj _ (conj _ _)).
  - intro x; destruct x; cbn [f_prod]; [unfold ggF | exact W | exact Zz | unfold hv; rewrite W, Zz; reflexivity | unfold tth | unfold vv_h];
      apply L; cbn [map fst snd]; rewrite g, !E by (cbn; tauto); reflexivity.
  - intros y y1 y2; destruct y; try contradiction; cbn [f_dec]; [unfold h_bb | unfold h_cc | unfold h_tautau | unfold h_mumu | unfold h_zz | unfold h_zga | unfold h_gaga];
      apply L; cbn [map fst snd]; rewrite ?g, !E by (cbn; tauto); reflexivity.
  - unfold h_gg. apply L; cbn [map fst snd]; rewrite g, !E by (cbn; tauto); reflexivity.
Qed.
Print Assumptions C164_muon_decay.
Definition wc_mu (a b : R) : wcs := fun k => match k with ll_1221 => RtoC a | phil3 1 1 => RtoC b | _ => RtoC 0 end.
Example C164_muon_decay_meets : (forall k, ~ In k [ll_1221; phil3 1 1; phil3 2 2] -> wc_mu 2 0 k = wc_mu 0 (-1) k)
  /\ fst (wc_mu 2 0 ll_1221) / 2 - fst (wc_mu 2 0 (phil3 1 1)) - fst (wc_mu 2 0 (phil3 2 2)) = fst (wc_mu 0 (-1) ll_1221) / 2 - fst (wc_mu 0 (-1) (phil3 1 1)) - fst (wc_mu 0 (-1) (phil3 2 2)).
Proof.
  split.
  - intros k H. destruct k as [| | | | | | | | | | i j | i j | i j | i j | i j | i j | i j | i j | i j | i j]; try reflexivity; try (exfalso; apply H; cbn; tauto);
      destruct i as [|[|i]]; try reflexivity; destruct j as [|[|j]]; try reflexivity; exfalso; apply H; cbn; tauto.
  - cbn. lra.
Qed.
