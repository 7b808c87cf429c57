From Coq Require Import Reals Lra Lia Permutation.
From Verif Require Import Base BaseLemmas Dist_Model Dist_Spec Dist_Proofs.
Local Open Scope R_scope.

Ltac dec := repeat match goal with
  | |- context [Rlt_dec ?a ?b] => destruct (Rlt_dec a b)
  | |- context [Rle_dec ?a ?b] => destruct (Rle_dec a b)
  | |- context [Rge_dec ?a ?b] => destruct (Rge_dec a b)
  | |- context [Rgt_dec ?a ?b] => destruct (Rgt_dec a b)
  | |- context [Req_EM_T ?a ?b] => destruct (Req_EM_T a b)
  end.

(** ** continuity of a function glued at a point *)
Lemma glue_continuous (f g : R -> R) c : continuity f -> continuity g -> f c = g c ->
  continuity (fun x => if Rlt_dec x c then f x else g x).
Proof.
  intros Hf Hg E.
  assert (Hmin : continuity (fun x => (x + c - Rabs (x - c)) / 2)).
  { intro x. apply continuity_pt_mult; [|apply continuity_pt_const; intros ? ?; reflexivity].
    apply continuity_pt_minus; [reg|].
    apply (continuity_pt_comp (fun x => x - c) Rabs); [reg|apply Rcontinuity_abs]. }
  assert (Hmax : continuity (fun x => (x + c + Rabs (x - c)) / 2)).
  { intro x. apply continuity_pt_mult; [|apply continuity_pt_const; intros ? ?; reflexivity].
    apply continuity_pt_plus; [reg|].
    apply (continuity_pt_comp (fun x => x - c) Rabs); [reg|apply Rcontinuity_abs]. }
  assert (Hall : continuity (fun x => f ((x + c - Rabs (x - c)) / 2) + (g ((x + c + Rabs (x - c)) / 2) - f c))).
  { intro x. apply continuity_pt_plus.
    - apply (continuity_pt_comp (fun x => (x + c - Rabs (x - c)) / 2) f); [apply Hmin|apply Hf].
    - apply continuity_pt_minus; [|apply continuity_pt_const; intros ? ?; reflexivity].
      apply (continuity_pt_comp (fun x => (x + c + Rabs (x - c)) / 2) g); [apply Hmax|apply Hg]. }
  intro x. eapply (continuity_pt_locally_ext _ _ 1); [lra| |apply Hall].
  intros y _. cbv beta. destruct (Rlt_dec y c) as [Hl|Hl].
  - rewrite (Rabs_left (y - c)) by lra.
    replace ((y + c - - (y - c)) / 2) with y by lra. replace ((y + c + - (y - c)) / 2) with c by lra. rewrite <- E. lra.
  - rewrite (Rabs_right (y - c)) by lra.
    replace ((y + c - (y - c)) / 2) with c by lra. replace ((y + c + (y - c)) / 2) with y by lra. lra.
Qed.
Lemma gauss_continuous c s : s <> 0 -> continuity (fun x => gauss x c s).
Proof.
  intros Hs. unfold gauss. intro x.
  assert (Hd : sqrt (2 * PI) * s <> 0) by (apply Rmult_integral_contrapositive_currified; [pose proof sqrt2pi_pos; lra|exact Hs]).
  assert (Hs2 : s ^ 2 <> 0) by (apply pow_nonzero; exact Hs).
  apply (continuity_pt_mult (fun x => exp (- (x - c) ^ 2 / s ^ 2 / 2)) (fun _ => / (sqrt (2 * PI) * s))); [|apply continuity_pt_const; intros ? ?; reflexivity].
  apply (continuity_pt_comp (fun x => - (x - c) ^ 2 / s ^ 2 / 2) exp); [|apply derivable_continuous, derivable_exp].
  apply (continuity_pt_mult (fun x => - (x - c) ^ 2 / s ^ 2) (fun _ => / 2)); [|apply continuity_pt_const; intros ? ?; reflexivity].
  apply (continuity_pt_mult (fun x => - (x - c) ^ 2) (fun _ => / s ^ 2)); [|apply continuity_pt_const; intros ? ?; reflexivity].
  apply continuity_pt_opp. reg.
Qed.

Lemma exp_logpdf x c s : 0 < s -> exp (normal_logpdf x c s) = gauss x c s.
Proof.
  intro Hs. pose proof sqrt2pi_pos. unfold normal_logpdf, gauss.
  unfold Rminus at 1. rewrite exp_plus, exp_Ropp, exp_ln by (apply Rmult_lt_0_compat; assumption). reflexivity.
Qed.
Lemma normal_pdf_center c s : 0 < s -> normal_pdf c c s = / (sqrt (2 * PI) * s).
Proof.
  intro Hs. pose proof sqrt2pi_pos. unfold normal_pdf. replace (- (c - c) ^ 2 / s ^ 2 / 2) with 0 by (field; lra).
  rewrite exp_0. unfold Rdiv. ring.
Qed.
Lemma gauss_center_scale c r l : 0 < r -> 0 < l -> l * gauss c c l = r * gauss c c r.
Proof.
  intros Hr Hl. pose proof sqrt2pi_pos. change gauss with normal_pdf. rewrite !normal_pdf_center by assumption. field. lra.
Qed.
Lemma ratio_right c r l : 0 < r -> 0 < l ->
  2 * normal_pdf c c r / (normal_pdf c c l + normal_pdf c c r) = 2 * (l / (r + l)).
Proof. intros Hr Hl. pose proof sqrt2pi_pos. rewrite !normal_pdf_center by assumption. field. repeat split; lra. Qed.
Lemma ratio_left c r l : 0 < r -> 0 < l ->
  2 * normal_pdf c c l / (normal_pdf c c l + normal_pdf c c r) = 2 * (1 - l / (r + l)).
Proof. intros Hr Hl. pose proof sqrt2pi_pos. rewrite !normal_pdf_center by assumption. field. repeat split; lra. Qed.

Lemma gauss_max x c s : 0 < s -> normal_logpdf x c s <= normal_logpdf c c s.
Proof.
  intro Hs. unfold normal_logpdf. replace (- (c - c) ^ 2 / s ^ 2 / 2) with 0 by (field; lra).
  assert (0 <= (x - c) ^ 2 / s ^ 2 / 2).
  { unfold Rdiv. apply Rmult_le_pos; [|lra]. apply Rmult_le_pos; [apply pow2_ge_0|]. apply Rlt_le, Rinv_0_lt_compat, pow_lt, Hs. }
  unfold Rdiv in *. rewrite !Ropp_mult_distr_l_reverse. lra.
Qed.

Section Dist.
  Context {Num : Type}.
  Variable num_central : Num -> R.
  Variable norm_ppf : R -> R.
  Variable gamma_ppf gamma_cdf : R -> R -> R -> R -> R.
  Variable gamma_logpdf : R -> R -> R -> R -> option R.
  Variable num_logpdf : Num -> R -> option R.
  Notation central := (central num_central).
  Notation dist := (dist Num).
  Notation logpdf := (logpdf num_central gamma_cdf gamma_logpdf num_logpdf).
  Notation delta_logpdf := (delta_logpdf num_central gamma_cdf gamma_logpdf num_logpdf).
  Notation support := (support num_central gamma_ppf gamma_cdf).

  (** the asymmetric normal distribution *)
  Lemma asymmetric_density c r l x : 0 < r -> 0 < l ->
    exists v, logpdf (AsymmetricNormal c r l) x = Some v /\
      exp v = if Rlt_dec x c then l / (r + l) * (2 * gauss x c l) else (1 - l / (r + l)) * (2 * gauss x c r).
  Proof.
    intros Hr Hl. cbn [Dist_Model.logpdf]. rewrite ratio_right, ratio_left by assumption.
    assert (0 < l / (r + l)) by (apply Rdiv_lt_0_compat; lra).
    assert (0 < 1 - l / (r + l)) by (replace (1 - l / (r + l)) with (r / (r + l)) by (field; lra); apply Rdiv_lt_0_compat; lra).
    destruct (Rlt_dec x c); eexists; (split; [reflexivity|]); rewrite exp_plus, exp_ln, exp_logpdf by lra; ring.
  Qed.
  Lemma asymmetric_continuous c r l : 0 < r -> 0 < l ->
    continuity (fun x => if Rlt_dec x c then l / (r + l) * (2 * gauss x c l) else (1 - l / (r + l)) * (2 * gauss x c r)).
  Proof.
    intros Hr Hl. apply glue_continuous.
    - intro x. apply continuity_pt_mult; [apply continuity_pt_const; intros ? ?; reflexivity|].
      apply continuity_pt_mult; [apply continuity_pt_const; intros ? ?; reflexivity|]. apply gauss_continuous. lra.
    - intro x. apply continuity_pt_mult; [apply continuity_pt_const; intros ? ?; reflexivity|].
      apply continuity_pt_mult; [apply continuity_pt_const; intros ? ?; reflexivity|]. apply gauss_continuous. lra.
    - pose proof (gauss_center_scale c r l Hr Hl) as E.
      replace (1 - l / (r + l)) with (r / (r + l)) by (field; lra).
      replace (l / (r + l) * (2 * gauss c c l)) with (2 / (r + l) * (l * gauss c c l)) by (field; lra).
      rewrite E. field. lra.
  Qed.
  Lemma asymmetric_random_side c r l u nl nr : 0 < r -> 0 < l ->
    (u <= l / (r + l) -> asymmetric_random c r l u nl nr = c - l * Rabs nl) /\
    (l / (r + l) < u -> asymmetric_random c r l u nl nr = c + r * Rabs nr).
  Proof.
    intros Hr Hl. unfold asymmetric_random.
    rewrite (Rabs_right (l / (r + l))) by (apply Rle_ge, Rlt_le, Rdiv_lt_0_compat; lra).
    split; intro H; destruct (Rgt_dec u (l / (r + l))); try lra; rewrite Rabs_mult;
      [rewrite (Rabs_right l) by lra|rewrite (Rabs_right r) by lra]; reflexivity.
  Qed.
  Lemma sign_pos s : 0 < s -> sign s = 1.
  Proof. intro. unfold sign. dec; lra. Qed.
  Lemma sign_neg s : s < 0 -> sign s = -1.
  Proof. intro. unfold sign. dec; lra. Qed.

  (** the relative log-density *)
  Lemma fin_le a b : a <= b -> not_positive (ext_sub (Fin a) (Fin b)).
  Proof. intro. right. eexists. split; [reflexivity|lra]. Qed.
  Lemma half_delta (d : dist) c s : s <> 0 ->
    (forall x, logpdf d x = if Rlt_dec (sign s * (x - c)) 0 then None else Some (ln 2 + normal_logpdf x c (Rabs s))) ->
    central d = c ->
    delta_logpdf d (central d) = Fin 0 /\ forall x, not_positive (delta_logpdf d x).
  Proof.
    intros Hs Hlog Hc. unfold Dist_Model.delta_logpdf. rewrite Hc.
    assert (E : logpdf d c = Some (ln 2 + normal_logpdf c c (Rabs s))).
    { rewrite Hlog. replace (sign s * (c - c)) with 0 by ring. dec; [lra|reflexivity]. }
    rewrite E. cbn [to_ext]. split; [cbn; f_equal; ring|]. intro x. rewrite Hlog.
    destruct (Rlt_dec (sign s * (x - c)) 0); [left; reflexivity|]. apply fin_le.
    pose proof (gauss_max x c (Rabs s) (Rabs_pos_lt _ Hs)). lra.
  Qed.
  Lemma int_part_IZR z : Int_part (IZR z) = z.
  Proof. unfold Int_part. assert (up (IZR z) = z + 1)%Z as ->; [|lia]. symmetry. apply tech_up; rewrite plus_IZR; lra. Qed.
  Lemma delta_spec (d : dist) : documented d ->
    delta_logpdf d (central d) = Fin 0 /\ (unimodal d -> forall x, not_positive (delta_logpdf d x)).
  Proof.
    destruct d as [c h|lo hi c|c|c s|c f|c r l|c s|lim cl s| | | | |]; cbn [documented]; intro H; try contradiction.
    - unfold Dist_Model.delta_logpdf. cbn [Dist_Model.logpdf Dist_Model.central].
      dec; try lra; cbn. split; [f_equal; ring|]. intros _ x. dec; cbn; try (left; reflexivity). apply (fin_le (- ln (2 * h))). lra.
    - unfold Dist_Model.delta_logpdf. cbn [Dist_Model.logpdf Dist_Model.central]. rewrite int_part_IZR.
      destruct (Req_EM_T (IZR c) (IZR c)); [|congruence].
      assert ((lo <=? c)%Z = true) as -> by (apply Z.leb_le; lia). assert ((c <=? hi)%Z = true) as -> by (apply Z.leb_le; lia).
      cbn [andb to_ext ext_sub]. split; [f_equal; ring|]. intros _ x.
      destruct (Req_EM_T (IZR (Int_part x)) x); [|left; reflexivity].
      destruct ((lo <=? Int_part x)%Z && (Int_part x <=? hi)%Z); [|left; reflexivity]. apply fin_le. lra.
    - unfold Dist_Model.delta_logpdf. cbn [Dist_Model.logpdf Dist_Model.central]. destruct (Req_EM_T c c); [|congruence].
      cbn. split; [f_equal; ring|]. intros _ x. destruct (Req_EM_T x c); [apply (fin_le 0 0); lra|left; reflexivity].
    - unfold Dist_Model.delta_logpdf. cbn [Dist_Model.logpdf Dist_Model.central to_ext]. split; [cbn; f_equal; ring|].
      intros _ x. apply fin_le. apply gauss_max. exact H.
    - destruct H as [Hc Hf]. unfold Dist_Model.delta_logpdf. cbn [Dist_Model.logpdf Dist_Model.central]. unfold lognorm_logpdf.
      destruct (Rle_dec ((if Rlt_dec c 0 then -1 else 1) * c) 0) as [Hle|Hgt].
      { exfalso. destruct (Rlt_dec c 0); [lra|]. destruct (Rtotal_order c 0) as [?|[?|?]]; lra. }
      split; [cbn; f_equal; ring|intros []].
    - destruct H as [Hr Hl]. unfold Dist_Model.delta_logpdf. cbn [Dist_Model.logpdf Dist_Model.central].
      rewrite ratio_right, ratio_left by assumption. destruct (Rlt_dec c c); [lra|]. split; [cbn; f_equal; ring|].
      intros _ x. destruct (Rlt_dec x c).
      + apply fin_le.
        assert (0 < l / (r + l)) by (apply Rdiv_lt_0_compat; lra).
        assert (0 < 1 - l / (r + l)) by (replace (1 - l / (r + l)) with (r / (r + l)) by (field; lra); apply Rdiv_lt_0_compat; lra).
        assert (E : ln (2 * (l / (r + l))) + normal_logpdf c c l = ln (2 * (1 - l / (r + l))) + normal_logpdf c c r).
        { apply exp_inv. rewrite !exp_plus, !exp_ln, !exp_logpdf by lra.
          pose proof (gauss_center_scale c r l Hr Hl) as E.
          replace (1 - l / (r + l)) with (r / (r + l)) by (field; lra).
          replace (2 * (l / (r + l)) * gauss c c l) with (2 / (r + l) * (l * gauss c c l)) by (field; lra).
          rewrite E. field. lra. }
        rewrite <- E. pose proof (gauss_max x c l Hl). lra.
      + apply fin_le. pose proof (gauss_max x c r Hr). lra.
    - destruct (half_delta (HalfNormal c s) c s H) as [A B]; [reflexivity|reflexivity|]. split; [exact A|intros _; exact B].
    - destruct H as (_ & _ & H). destruct (half_delta (GaussianUpperLimit lim cl s) 0 s H) as [A B]; [reflexivity|reflexivity|].
      split; [exact A|intros _; exact B].
  Qed.

  (** the central value lies in the support *)
  Lemma ln_pos f : 1 < f -> 0 < ln f.
  Proof. intro. rewrite <- ln_1. apply ln_increasing; lra. Qed.
  Lemma support_spec (d : dist) : documented d -> match d with LogNormal c _ => 0 < c | _ => True end ->
    exists i, support d = Some i /\ in_interval (central d) i.
  Proof.
    destruct d as [c h|lo hi c|c|c s|c f|c r l|c s|lim cl s| | | | |]; cbn [documented Dist_Model.support]; intros H H0; try contradiction;
      unfold in_interval; cbn [Dist_Model.central].
    1,3,4: eexists; split; [reflexivity|cbn; lra].
    - eexists; split; [reflexivity|cbn]. split; apply IZR_le; lia.
    - destruct (Rlt_dec c 0); [lra|]. eexists; split; [reflexivity|cbn]. split; [lra|].
      rewrite (Rabs_right c) by lra. rewrite exp_plus, exp_ln by lra.
      assert (1 <= exp (6 * ln f)). { rewrite <- exp_0. apply Rlt_le, exp_increasing. pose proof (ln_pos f (proj2 H)). lra. }
      nra.
    - eexists; split; [reflexivity|cbn]. lra.
    - eexists; split; [reflexivity|cbn]. split; [apply Rmin_l|apply Rmax_l].
    - eexists; split; [reflexivity|cbn]. split; [apply Rmin_l|apply Rmax_l].
  Qed.
  Lemma lognormal_negative_support (c f : R) : c < 0 -> 1 < f ->
    exists i, support (LogNormal c f) = Some i /\ snd i < fst i /\ ~ in_interval c i.
  Proof.
    intros Hc Hf. cbn [Dist_Model.support]. destruct (Rlt_dec c 0); [|lra]. eexists. split; [reflexivity|].
    unfold in_interval. cbn [fst snd]. pose proof (exp_pos (ln (Rabs c) - 6 * ln f)). split; lra.
  Qed.

  (** constructors *)
  Lemma mk_normal_spec c s : (0 < s -> mk_normal c s = Ok (@Normal Num c s)) /\ (s <= 0 -> mk_normal (Num := Num) c s = Err ValueError).
  Proof. unfold mk_normal. dec; split; intro; try lra; reflexivity. Qed.
  Lemma mk_asymmetric_spec c r l :
    (0 < r -> 0 < l -> mk_asymmetric c r l = Ok (@AsymmetricNormal Num c r l)) /\
    (r <= 0 \/ l <= 0 -> mk_asymmetric (Num := Num) c r l = Err ValueError).
  Proof. unfold mk_asymmetric. dec; split; intros; try lra; reflexivity. Qed.
  Lemma mk_half_spec c s : (s <> 0 -> mk_half c s = Ok (@HalfNormal Num c s)) /\ (s = 0 -> mk_half (Num := Num) c s = Err ValueError).
  Proof. unfold mk_half. dec; split; intro; try contradiction; reflexivity. Qed.
  Lemma mk_lognormal_spec c f :
    (c <> 0 -> 1 < f -> mk_lognormal c f = Ok (@LogNormal Num c f)) /\
    (c = 0 \/ f <= 1 -> mk_lognormal (Num := Num) c f = Err ValueError).
  Proof. unfold mk_lognormal. dec; split; intros; try contradiction; try lra; try reflexivity. Qed.

  (** upper limits *)
  Variable norm_cdf : R -> R.
  Notation cdf := (cdf num_central gamma_cdf norm_cdf).
  Lemma mk_gul_spec limit cl : normal_quantiles norm_ppf norm_cdf -> 0 < cl < 1 ->
    (0 < limit -> exists s, mk_gaussian_upper_limit norm_ppf limit cl = Ok (@GaussianUpperLimit Num limit cl s) /\ 0 < s /\
      limit / s = norm_ppf (1 / 2 + cl / 2)) /\
    (limit <= 0 -> mk_gaussian_upper_limit (Num := Num) norm_ppf limit cl = Err ValueError).
  Proof.
    intros [_ Hpos] Hcl. unfold mk_gaussian_upper_limit. destruct (Rlt_dec 1 cl); [lra|]. destruct (Rlt_dec cl 0); [lra|].
    assert (0 < norm_ppf (1 / 2 + cl / 2)) as Hp by (apply Hpos; lra).
    replace (0.5 + cl / 2) with (1 / 2 + cl / 2) by lra.
    split; intro Hl; (destruct (Rle_dec limit 0); [try lra|try lra]); [|reflexivity].
    assert (Hs : 0 < limit / norm_ppf (1 / 2 + cl / 2)) by (apply Rdiv_lt_0_compat; assumption).
    cbv zeta. destruct (Req_EM_T (limit / norm_ppf (1 / 2 + cl / 2)) 0); [lra|].
    eexists. split; [reflexivity|]. split; [exact Hs|]. field. split; lra.
  Qed.
  Lemma gul_cdf limit cl d : normal_quantiles norm_ppf norm_cdf -> 0 < cl < 1 ->
    mk_gaussian_upper_limit (Num := Num) norm_ppf limit cl = Ok d -> cdf d limit = Some cl.
  Proof.
    intros HQ Hcl E. destruct (mk_gul_spec limit cl HQ Hcl) as [Hok Herr].
    destruct (Rle_lt_dec limit 0) as [Hl|Hl]; [rewrite (Herr Hl) in E; discriminate|].
    destruct (Hok Hl) as (s & E' & Hs & Hr). rewrite E' in E. injection E as <-.
    cbn [Dist_Model.cdf Dist_Model.central]. destruct (Rlt_dec s 0); [lra|]. unfold halfnorm_cdf.
    destruct (Rle_dec limit 0); [lra|]. f_equal. replace (limit - 0) with limit by ring. rewrite Hr.
    destruct HQ as [Hi _]. rewrite Hi by lra. field.
  Qed.
  Notation mk_gul := (mk_gamma_upper_limit (Num := Num) gamma_ppf gamma_cdf).
  Lemma gamma_ul_inv limit cl total background signal d :
    mk_gul limit cl total background signal = Ok d ->
    exists sf t b s s', d = GammaUpperLimit limit cl sf t b s /\ 0 <= cl <= 1 /\ 0 < limit /\
      fix_counts total background signal = Ok (t, b, s') /\ total = Some t /\ background = Some b /\ s = t - b /\
      0 < sf /\ sf = limit / gamma_positive_ppf gamma_ppf gamma_cdf (t + 1) (- b * 1) 1 cl.
  Proof.
    unfold mk_gamma_upper_limit. destruct (Rlt_dec 1 cl); [discriminate|]. destruct (Rlt_dec cl 0); [discriminate|].
    destruct (Rle_dec limit 0); [discriminate|]. unfold mk_gamma_counting at 1. destruct (Rle_dec 1 0); [lra|].
    cbn [bind]. destruct (fix_counts total background signal) as [[[t b] s']|] eqn:E; [|discriminate]. cbn [bind].
    destruct (Rlt_dec 0 (- b * 1)); [discriminate|].
    unfold mk_gamma_counting. set (L := gamma_positive_ppf gamma_ppf gamma_cdf (t + 1) (- b * 1) 1 cl).
    cbn [bind]. fold L. destruct (Rle_dec (limit / L) 0); [discriminate|].
    unfold fix_counts at 1. destruct total as [t0|], background as [b0|]; cbn [bind]; try discriminate.
    2-3: repeat match goal with |- context [Rlt_dec ?a ?b] => destruct (Rlt_dec a b) end; discriminate.
    destruct (Rlt_dec t0 0) as [?|Ht0]; [discriminate|]. destruct (Rlt_dec b0 0) as [?|Hb0]; [discriminate|].
    cbn [bind]. destruct (Rlt_dec 0 (- b0 * (limit / L))); [discriminate|]. intro Ed. injection Ed as <-.
    assert (t = t0 /\ b = b0) as [-> ->].
    { revert E. unfold fix_counts. destruct (Rlt_dec t0 0); [contradiction|]. destruct (Rlt_dec b0 0); [contradiction|].
      destruct signal.
      - match goal with |- context [Rlt_dec ?a ?b] => destruct (Rlt_dec a b) end; [discriminate|]. intro E; injection E; auto.
      - intro E; injection E; auto. }
    exists (limit / L), t0, b0, (t0 - b0), s'. repeat split; auto; try lra.
  Qed.
  Lemma gamma_ul_cdf limit cl total background signal d : gamma_functions gamma_ppf gamma_cdf -> cl < 1 ->
    mk_gul limit cl total background signal = Ok d -> cdf d limit = Some cl.
  Proof.
    intros (Hinv & Hrange & Hscale) Hcl E.
    destruct (gamma_ul_inv _ _ _ _ _ _ E) as (sf & t & b & s & s' & -> & Hc & Hl & Hfix & -> & -> & _ & Hsf & Esf).
    assert (Ht : 0 <= t).
    { revert Hfix. unfold fix_counts. destruct (Rlt_dec t 0); [discriminate|]. intros _. lra. }
    cbn [Dist_Model.cdf]. unfold gamma_positive_cdf. destruct (Rlt_dec limit 0); [lra|].
    set (L := gamma_positive_ppf gamma_ppf gamma_cdf (t + 1) (- b * 1) 1 cl) in *.
    assert (HL : L <> 0). { intro E0. rewrite E0 in Esf. unfold Rdiv in Esf. rewrite Rinv_0 in Esf. lra. }
    assert (El : limit = L * sf) by (rewrite Esf; field; exact HL).
    assert (E1 : gamma_cdf (t + 1) (- b * sf) sf limit = gamma_cdf (t + 1) (- b * 1) 1 L).
    { rewrite El. rewrite <- (Hscale (t + 1) (- b * 1) 1 sf L) by lra. f_equal; ring. }
    assert (E0 : gamma_cdf (t + 1) (- b * sf) sf 0 = gamma_cdf (t + 1) (- b * 1) 1 0).
    { rewrite <- (Hscale (t + 1) (- b * 1) 1 sf 0) by lra. f_equal; ring. }
    rewrite E1, E0. f_equal. unfold L, gamma_positive_ppf. cbv zeta.
    pose proof (Hrange (t + 1) (- b * 1) 1 0 ltac:(lra) ltac:(lra)) as H0.
    set (c0 := gamma_cdf (t + 1) (- b * 1) 1 0) in *.
    rewrite Hinv; [field; lra|lra|lra|]. split; [nra|nra].
  Qed.

  (** error ranges of the log-normal distribution *)
  Variable conf_level : R -> R.
  Notation error_left := (error_left norm_ppf conf_level).
  Notation error_right := (error_right norm_ppf conf_level).
  Lemma lognormal_errors (c f n : R) :
    norm_ppf (1 / 2 + conf_level n / 2) = n -> norm_ppf (1 / 2 - conf_level n / 2) = - n ->
    c <> 0 -> 1 < f -> 0 <= n ->
    exists el er, error_left (@LogNormal Num c f) n = Some el /\ error_right (@LogNormal Num c f) n = Some er /\
      0 <= el /\ 0 <= er /\
      (0 < c -> c - el = c / exp (n * ln f) /\ c + er = c * exp (n * ln f)) /\
      (c < 0 -> c - el = c * exp (n * ln f) /\ c + er = c / exp (n * ln f)).
  Proof.
    intros Hp Hm Hc Hf Hn. cbn [Dist_Model.error_left Dist_Model.error_right]. eexists _, _. split; [reflexivity|]. split; [reflexivity|].
    unfold lognormal_ppf, lognorm_ppf. pose proof (ln_pos f Hf) as Hlf.
    assert (He1 : 1 <= exp (n * ln f)).
    { rewrite <- exp_0. assert (0 <= n * ln f) by nra. destruct (Req_EM_T (n * ln f) 0) as [->|]; [lra|]. apply Rlt_le, exp_increasing. lra. }
    assert (Hei : exp (- (n * ln f)) = / exp (n * ln f)) by apply exp_Ropp.
    assert (Hi : 0 < / exp (n * ln f) <= 1).
    { split; [apply Rinv_0_lt_compat; lra|]. rewrite <- Rinv_1. apply Rinv_le_contravar; lra. }
    destruct (Rlt_dec c 0) as [Hneg|Hpos].
    - replace (1 - (0.5 - conf_level n / 2)) with (1 / 2 + conf_level n / 2) by lra.
      replace (1 - (0.5 + conf_level n / 2)) with (1 / 2 - conf_level n / 2) by lra. rewrite Hp, Hm.
      rewrite (Rabs_left c) by exact Hneg. rewrite !exp_plus, !exp_ln by lra.
      replace (ln f * - n) with (- (n * ln f)) by ring. rewrite Hei. replace (ln f * n) with (n * ln f) by ring.
      set (e := exp (n * ln f)) in *. unfold Rdiv. repeat split; intros; try lra; nra.
    - assert (0 < c) by (destruct (Rtotal_order c 0) as [?|[?|?]]; lra).
      replace (0.5 - conf_level n / 2) with (1 / 2 - conf_level n / 2) by lra.
      replace (0.5 + conf_level n / 2) with (1 / 2 + conf_level n / 2) by lra. rewrite Hp, Hm.
      rewrite (Rabs_right c) by lra. rewrite !exp_plus, !exp_ln by lra.
      replace (ln f * - n) with (- (n * ln f)) by ring. rewrite Hei. replace (ln f * n) with (n * ln f) by ring.
      set (e := exp (n * ln f)) in *. unfold Rdiv. repeat split; intros; try lra; nra.
  Qed.
End Dist.

(** counts *)
Lemma fix_counts_two t b s : 0 <= t -> 0 <= b -> t = s + b ->
  fix_counts (Some t) (Some b) None = Ok (t, b, s) /\ fix_counts (Some t) None (Some s) = Ok (t, b, s) /\
  fix_counts None (Some b) (Some s) = Ok (t, b, s) /\ fix_counts (Some t) (Some b) (Some s) = Ok (t, b, s).
Proof.
  intros Ht Hb E. unfold fix_counts. destruct (Rlt_dec t 0); [lra|]. destruct (Rlt_dec b 0); [lra|].
  replace (t - b) with s by lra. replace (t - s) with b by lra. replace (s + b) with t by lra.
  replace (s - s) with 0 by ring. assert (E0 : forall x, 0 / x = 0) by (intro; unfold Rdiv; ring). rewrite E0, Rabs_R0. destruct (Rlt_dec 1e-15 0); [lra|].
  repeat split; reflexivity.
Qed.
Lemma fix_counts_fewer t b s : (match t, b, s with
  | None, None, _ | None, _, None | _, None, None => True | _, _, _ => False end) ->
  fix_counts t b s = Err ValueError.
Proof.
  unfold fix_counts. destruct t as [t|], b as [b|], s as [s|]; intro H; try contradiction;
  repeat match goal with |- context [Rlt_dec ?a ?b] => destruct (Rlt_dec a b) end; reflexivity.
Qed.
