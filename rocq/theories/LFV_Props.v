(** * Theorems about lepton-flavour violating decays and mu-e conversion (C169 - C171) *)
From Coq Require Import Reals List String Lra Lia.
From Coquelicot Require Import Coquelicot.
From Verif Require Import Base Basics_Model Decays_Model Leptonic_Model Leptonic_Spec Leptonic_Proofs LFV_Model LFV_Spec LFV_Proofs.
Import ListNotations.
Local Open Scope R_scope.

(** ** C169: l -> l l l *)
Definition big_logs (m : lep3 -> R) (l1 l2 l3 : lep3) : Prop :=
  match l1, l2, l3 with
  | Lmu, Le, Le => 4 <= ln (m Ltau ^ 2 / m Le ^ 2) | Le, Lmu, Lmu => 4 <= ln (m Ltau ^ 2 / m Lmu ^ 2)
  | Lmu, Lmu, Lmu => 17 / 4 <= ln (m Ltau ^ 2 / m Lmu ^ 2) | Le, Le, Le => 17 / 4 <= ln (m Ltau ^ 2 / m Le ^ 2)
  | _, _, _ => True end.
Lemma br3_is (m : lep3 -> R) (tt al : R) l1 l2 l3 : In (l1, l2, l3) decays3 -> exists F : (eop -> C) -> R,
  (forall g, exists w, wc_eff al (m Ltau) g Ltau l1 l2 l3 = Ok w /\ BR_taul1l2l3 m tt al g l1 l2 l3 = Ok (tt * m Ltau ^ 5 / 192 / 8 / PI ^ 3 * F w))
  /\ ((exists a, F = BR_tau3mu (m Ltau) a) \/ (exists a, F = BR_taumuee (m Ltau) a) \/ F = BR_taumuemu) /\ (big_logs m l1 l2 l3 -> forall w, 0 <= F w).
Proof.
  intro H. unfold decays3 in H. cbn [In] in H.
  destruct H as [H | [H | [H | [H | [H | [H | []]]]]]]; injection H as <- <- <-; eexists; (split; [intro g; eexists; split; reflexivity|]); cbn [big_logs];
    (split; [first [left; eexists; reflexivity | right; left; eexists; reflexivity | right; right; reflexivity]|]); intro L;
    first [exact (fun w => tau3mu_pos _ _ w L) | exact (fun w => taumuee_pos _ _ w L) | exact taumuemu_pos].
Qed.
(** exactly the six decays can be computed; no rate without new physics; rates are quadratic in the coefficients; CP-conjugate and mirror-image coefficients give the same rate;
    rates are non-negative if the logarithms of the mass ratios are large enough *)
Theorem C169_tau : forall m tt al l1 l2 l3,
  (In (l1, l2, l3) decays3 ->
     BR_taul1l2l3 m tt al none3 l1 l2 l3 = Ok 0
     /\ (forall g, exists v, BR_taul1l2l3 m tt al g l1 l2 l3 = Ok v /\ (forall t, BR_taul1l2l3 m tt al (scaled t g) l1 l2 l3 = Ok (t ^ 2 * v))
          /\ BR_taul1l2l3 m tt al (cp g) l1 l2 l3 = Ok v /\ (forall g', mirrored g g' -> BR_taul1l2l3 m tt al g' l1 l2 l3 = Ok v)
          /\ (0 <= tt -> 0 <= m Ltau -> big_logs m l1 l2 l3 -> 0 <= v)))
  /\ (~ In (l1, l2, l3) decays3 -> forall g, BR_taul1l2l3 m tt al g l1 l2 l3 = Err KeyError \/ BR_taul1l2l3 m tt al g l1 l2 l3 = Err ValueError).
Proof.
  intros m tt al l1 l2 l3. split.
  - intro H. destruct (br3_is m tt al l1 l2 l3 H) as (F & HF & Hc & Hpos). split.
    + destruct (HF none3) as (w & E & ->). f_equal. pose proof (eff_none _ _ _ _ _ _ _ E) as Z.
      assert (F w = 0); [|rewrite H0; ring].
      destruct Hc as [(a & ->) | [(a & ->) | ->]]; unfold BR_tau3mu, BR_taumuee, BR_taumuemu; rewrite !Z, !a2_0; cbn [fst snd Cplus Cmult Cconj RtoC]; ring.
    + intro g. destruct (HF g) as (w & E & B). exists (tt * m Ltau ^ 5 / 192 / 8 / PI ^ 3 * F w). refine (conj B (conj _ (conj _ (conj _ _)))).
      * intro t. destruct (HF (scaled t g)) as (w' & E' & ->). destruct (eff_scale _ _ _ t _ _ _ _ _ E) as (w2 & E2 & S2). rewrite E' in E2. injection E2 as <-. f_equal.
        assert (F w' = t ^ 2 * F w) as ->; [|ring]. destruct Hc as [(a & ->) | [(a & ->) | ->]]; [apply (scale_3 (m Ltau) a t w w' S2) | apply (scale_3 (m Ltau) a t w w' S2) | apply (scale_3 1 1 t w w' S2)].
      * destruct (HF (cp g)) as (w' & E' & ->). destruct (eff_cp _ _ _ _ _ _ _ _ E) as (w2 & E2 & S2). rewrite E' in E2. injection E2 as <-. f_equal. f_equal.
        destruct Hc as [(a & ->) | [(a & ->) | ->]]; [apply (conj_3 (m Ltau) a w w' S2) | apply (conj_3 (m Ltau) a w w' S2) | apply (conj_3 1 1 w w' S2)].
      * intros g' Mi. destruct (HF g') as (w' & E' & ->). destruct (eff_mirror _ _ _ _ _ _ _ _ _ Mi E) as (w2 & E2 & S2). rewrite E' in E2. injection E2 as <-. f_equal. f_equal.
        destruct Hc as [(a & ->) | [(a & ->) | ->]]; [apply (swap_3 (m Ltau) a w w' S2) | apply (swap_3 (m Ltau) a w w' S2) | apply (swap_3 1 1 w w' S2)].
      * intros Ht Hm HL. specialize (Hpos HL w). pose proof PI_RGT_0 as hp. apply Rmult_le_pos; [|exact Hpos].
        apply Rmult_le_pos; [apply Rmult_le_pos; [apply Rmult_le_pos; [apply Rmult_le_pos; [exact Ht | apply pow_le; exact Hm] | lra] | lra] | left; apply Rinv_0_lt_compat, pow_lt; exact hp].
  - intros N g. destruct l1, l2, l3; try (exfalso; apply N; cbn; tauto); unfold BR_taul1l2l3, wc_eff; cbn [sector3 lep3_eqb bind]; auto.
Qed.
Print Assumptions C169_tau.
(** the physical masses satisfy the condition on the logarithms: e.g. m_tau/m_mu > 10 *)
Example C169_tau_meets : big_logs (fun l => match l with Le => 1 / 2000 | Lmu => 1 / 10 | Ltau => 17 / 10 end) Lmu Lmu Lmu.
Proof.
  cbn [big_logs]. apply Rle_trans with (ln (exp 1 * exp 1 * exp 1 * exp 1 * exp 1)).
  - rewrite !ln_mult by (repeat apply Rmult_lt_0_compat; apply exp_pos). rewrite ln_exp. lra.
  - apply Rcomplements.ln_le; [repeat apply Rmult_lt_0_compat; apply exp_pos|]. pose proof exp_le_3 as E3. pose proof (exp_pos 1) as E0.
    apply Rle_trans with (3 * 3 * 3 * 3 * 3); [|lra]. repeat apply Rmult_le_compat; try lra; repeat apply Rmult_le_pos; lra.
Qed.
(** the bound on the logarithm is sharp: below it there are coefficients with a negative rate *)
Theorem C169_bound : forall m tt al, 0 < tt -> 0 < m Ltau -> 0 < al ->
  ((forall g v, BR_taul1l2l3 m tt al g Lmu Lmu Lmu = Ok v -> 0 <= v) <-> 17 / 4 <= ln (m Ltau ^ 2 / m Lmu ^ 2))
  /\ ((forall g v, BR_taul1l2l3 m tt al g Lmu Le Le = Ok v -> 0 <= v) <-> 4 <= ln (m Ltau ^ 2 / m Le ^ 2)).
Proof.
  intros m tt al Ht Hm Ha. pose proof PI_RGT_0 as hp.
  assert (Pp : 0 < tt * m Ltau ^ 5 / 192 / 8 / PI ^ 3).
  { apply Rdiv_lt_0_compat; [|apply pow_lt; exact hp]. apply Rdiv_lt_0_compat; [|lra]. apply Rdiv_lt_0_compat; [|lra]. apply Rmult_lt_0_compat; [exact Ht | apply pow_lt; exact Hm]. }
  set (k := sqrt (4 * PI * al) / m Ltau). assert (Hk : 0 < k).
  { apply Rdiv_lt_0_compat; [|exact Hm]. apply sqrt_lt_R0. apply Rmult_lt_0_compat; [lra | exact Ha]. }
  split; split.
  - intro A. apply Rnot_lt_le. intro L.
    set (g := (fun s n => if String.eqb n "Cgamma_taumu" then RtoC (/ k) else if String.eqb n "CVLL_mumutaumu" then RtoC (-4) else if String.eqb n "CVLR_taumumumu" then RtoC (-4) else RtoC 0) : getwc).
    assert (E : BR_taul1l2l3 m tt al g Lmu Lmu Lmu = Ok (tt * m Ltau ^ 5 / 192 / 8 / PI ^ 3 * (32 * (ln (m Ltau ^ 2 / m Lmu ^ 2) - 17 / 4)))).
    { unfold BR_taul1l2l3, wc_eff. cbn [sector3 lep3_eqb bind]. f_equal. f_equal. rewrite tau3mu_squares. set (Lg := ln _). fold k. unfold g. cbn [String.eqb Ascii.eqb Bool.eqb].
      rewrite !a2_is. cbn [fst snd Cplus Cmult Cconj RtoC]. field. lra. }
    specialize (A g _ E). assert (tt * m Ltau ^ 5 / 192 / 8 / PI ^ 3 * (32 * (ln (m Ltau ^ 2 / m Lmu ^ 2) - 17 / 4)) < 0); [|lra].
    rewrite <- Ropp_0. rewrite <- (Ropp_involutive (_ * _)). apply Ropp_lt_contravar. rewrite Ropp_mult_distr_r. apply Rmult_lt_0_compat; [exact Pp | lra].
  - intros L g v E. destruct (proj1 (C169_tau m tt al Lmu Lmu Lmu) ltac:(cbn; tauto)) as (_ & B). destruct (B g) as (v' & E' & _ & _ & _ & P). rewrite E in E'. injection E' as <-.
    apply P; [lra | lra | exact L].
  - intro A. apply Rnot_lt_le. intro L.
    set (g := (fun s n => if String.eqb n "Cgamma_taumu" then RtoC (/ k) else if String.eqb n "CVLL_eetaumu" then RtoC (-4) else if String.eqb n "CVLR_taumuee" then RtoC (-4) else RtoC 0) : getwc).
    assert (E : BR_taul1l2l3 m tt al g Lmu Le Le = Ok (tt * m Ltau ^ 5 / 192 / 8 / PI ^ 3 * (32 * (ln (m Ltau ^ 2 / m Le ^ 2) - 4)))).
    { unfold BR_taul1l2l3, wc_eff. cbn [sector3 lep3_eqb bind]. f_equal. f_equal. rewrite taumuee_squares. set (Lg := ln _). fold k. unfold g. cbn [String.eqb Ascii.eqb Bool.eqb].
      rewrite !(cdiv_r _ 2), !(cdiv_r _ 8) by lra. rewrite !a2_is. cbn [fst snd Cplus Cminus Copp Cmult Cconj RtoC]. field. lra. }
    specialize (A g _ E). assert (tt * m Ltau ^ 5 / 192 / 8 / PI ^ 3 * (32 * (ln (m Ltau ^ 2 / m Le ^ 2) - 4)) < 0); [|lra].
    rewrite <- Ropp_0. rewrite <- (Ropp_involutive (_ * _)). apply Ropp_lt_contravar. rewrite Ropp_mult_distr_r. apply Rmult_lt_0_compat; [exact Pp | lra].
  - intros L g v E. destruct (proj1 (C169_tau m tt al Lmu Le Le) ltac:(cbn; tauto)) as (_ & B). destruct (B g) as (v' & E' & _ & _ & _ & P). rewrite E in E'. injection E' as <-.
    apply P; [lra | lra | exact L].
Qed.
Print Assumptions C169_bound.

Lemma lgamma_is (m : lep3 -> R) (tt : R) (g : getwc) l1 l2 s : 0 < m l2 < m l1 ->
  (l1, l2, s) = (Ltau, Lmu, "mutau"%string) \/ (l1, l2, s) = (Ltau, Le, "taue"%string) \/ (l1, l2, s) = (Lmu, Le, "mue"%string) ->
  BR_lgamma m tt g l1 l2 = Ok (tt * ((m l1 ^ 2 - m l2 ^ 2) ^ 3 / (4 * PI * m l1 ^ 3)) * (a2 (g s ("Cgamma_" ++ ln_ l1 ++ ln_ l2)%string) + a2 (g s ("Cgamma_" ++ ln_ l2 ++ ln_ l1)%string))).
Proof.
  intros Hm H. pose proof PI_RGT_0 as hp.
  assert (E : forall c1 c2, BR_llgamma tt (m l1) (m l2) c1 c2 = tt * ((m l1 ^ 2 - m l2 ^ 2) ^ 3 / (4 * PI * m l1 ^ 3)) * (a2 c1 + a2 c2)).
  { intros c1 c2. unfold BR_llgamma. rewrite Fvf_photon by lra. unfold phase_space.
    assert (K : sqrt (((m l1 + m l2) ^ 2 - 0 ^ 2) * ((m l1 - m l2) ^ 2 - 0 ^ 2)) = m l1 ^ 2 - m l2 ^ 2).
    { replace (((m l1 + m l2) ^ 2 - 0 ^ 2) * ((m l1 - m l2) ^ 2 - 0 ^ 2)) with ((m l1 ^ 2 - m l2 ^ 2) * (m l1 ^ 2 - m l2 ^ 2)) by ring. apply sqrt_square. nra. }
    assert (K2 : sqrt ((m l1 ^ 2 - (m l2 + 0) ^ 2) * (m l1 ^ 2 - (m l2 - 0) ^ 2)) = m l1 ^ 2 - m l2 ^ 2).
    { replace ((m l1 ^ 2 - (m l2 + 0) ^ 2) * (m l1 ^ 2 - (m l2 - 0) ^ 2)) with ((m l1 ^ 2 - m l2 ^ 2) * (m l1 ^ 2 - m l2 ^ 2)) by ring. apply sqrt_square. nra. }
    rewrite ?K, ?K2. unfold Cminus. rewrite Copp_0, !Cplus_0_r.
    change (Cmod (RtoC 2 * Cconj c1)%C ^ 2) with (a2 (RtoC 2 * Cconj c1)%C). change (Cmod (RtoC 2 * c2)%C ^ 2) with (a2 (RtoC 2 * c2)%C). rewrite !a2_scale, a2_conj. field. lra. }
  destruct H as [H | [H | H]]; injection H as -> -> ->; unfold BR_lgamma; cbn [bind]; rewrite E; reflexivity.
Qed.
(** dipole dominance: with dipole coefficients only, three-body and radiative decays have the well-known ratio alpha/(3 pi) (log(M^2/m^2) - 11/4) for identical leptons,
    - 3 for different ones, for a massless lepton in the radiative decay; the same for mu -> 3e with the lifetime of the muon 192 pi^3/(GF^2 m^5) *)
Theorem C169_dipole : forall m tt al g, dipole_only g -> 0 < m Le < m Lmu -> m Lmu < m Ltau -> 0 <= al ->
  (forall l : lep3, l = Le \/ l = Lmu -> exists v3 vg, BR_taul1l2l3 m tt al g l l l = Ok v3 /\ BR_lgamma m tt g Ltau l = Ok vg
     /\ v3 * (1 - m l ^ 2 / m Ltau ^ 2) ^ 3 = al / (3 * PI) * (ln (m Ltau ^ 2 / m l ^ 2) - 11 / 4) * vg)
  /\ (forall l l' : lep3, (l, l') = (Lmu, Le) \/ (l, l') = (Le, Lmu) -> exists v3 vg, BR_taul1l2l3 m tt al g l l' l' = Ok v3 /\ BR_lgamma m tt g Ltau l = Ok vg
     /\ v3 * (1 - m l ^ 2 / m Ltau ^ 2) ^ 3 = al / (3 * PI) * (ln (m Ltau ^ 2 / m l' ^ 2) - 3) * vg)
  /\ (forall GF, 0 < GF -> exists v3 vg, BR_mu3e m GF al g = Ok v3 /\ BR_lgamma m (192 * PI ^ 3 / (GF ^ 2 * m Lmu ^ 5)) g Lmu Le = Ok vg
     /\ v3 * (1 - m Le ^ 2 / m Lmu ^ 2) ^ 3 = al / (3 * PI) * (ln (m Lmu ^ 2 / m Le ^ 2) - 11 / 4) * vg)
  /\ (forall l l', (l, l') = (Lmu, Le) \/ (l, l') = (Le, Lmu) -> BR_taul1l2l3 m tt al g l l' l = Ok 0).
Proof.
  intros m tt al g Hd Hm Hm' Ha. pose proof PI_RGT_0 as hp. 
  assert (Hs : forall M, sqrt (4 * PI * al) ^ 2 / M ^ 2 = 4 * PI * al / M ^ 2) by (intro M; rewrite pow2_sqrt by (apply Rmult_le_pos; lra); reflexivity).
  assert (N : forall s n, negb (existsb (String.eqb n) ["Cgamma_taumu"; "Cgamma_mutau"; "Cgamma_taue"; "Cgamma_etau"; "Cgamma_mue"; "Cgamma_emu"]%string) = true -> g s n = RtoC 0).
  { intros s n H. apply Hd. intro I. rewrite Bool.negb_true_iff in H. assert (T : existsb (String.eqb n) ["Cgamma_taumu"; "Cgamma_mutau"; "Cgamma_taue"; "Cgamma_etau"; "Cgamma_mue"; "Cgamma_emu"]%string = true).
    { apply existsb_exists. exists n. split; [exact I | apply String.eqb_refl]. } congruence. }
  assert (D3 : forall M mm (k : R) c1 c2 w, k ^ 2 = 4 * PI * al / M ^ 2 -> (forall o, w o = match o with E7 => (RtoC k * c1)%C | E7p => (RtoC k * Cconj c2)%C | _ => RtoC 0 end) ->
     BR_tau3mu M mm w = 32 * (4 * PI * al / M ^ 2) * (a2 c1 + a2 c2) * (ln (M ^ 2 / mm ^ 2) - 11 / 4)
     /\ BR_taumuee M mm w = 32 * (4 * PI * al / M ^ 2) * (a2 c1 + a2 c2) * (ln (M ^ 2 / mm ^ 2) - 3)).
  { intros M mm k c1 c2 w Hk Hw. unfold BR_tau3mu, BR_taumuee. rewrite !Hw, !a2_scale, !a2_0, a2_conj, Hk. set (L := ln _).
    split; cbn [fst snd Cplus Cmult Cconj RtoC]; ring. }
  assert (Hk : forall M, M <> 0 -> (sqrt (4 * PI * al) / M) ^ 2 = 4 * PI * al / M ^ 2).
  { intros M HM. unfold Rdiv. rewrite Rpow_mult_distr, pow2_sqrt by (apply Rmult_le_pos; lra). rewrite pow_inv. reflexivity. }
  assert (hc : forall z : C, z = RtoC 0 -> Cconj z = RtoC 0) by (intros z ->; apply injective_projections; cbn; ring).
  refine (conj _ (conj _ (conj _ _))).
  - intros l Hl. destruct Hl as [-> | ->].
    + rewrite (lgamma_is m tt g Ltau Le "taue"%string) by (auto; lra). do 2 eexists. split; [|split; [reflexivity|]].
      * unfold BR_taul1l2l3, wc_eff; cbn [sector3 lep3_eqb bind]; refine (f_equal Ok (f_equal (Rmult _) _)).
        apply (D3 (m Ltau) (m Le) (sqrt (4 * PI * al) / m Ltau) (g "taue"%string "Cgamma_taue"%string) (g "taue"%string "Cgamma_etau"%string)); [apply Hk; lra|].
        intro o; destruct o; try reflexivity; try (apply N; reflexivity); apply hc, N; reflexivity.
      * cbv beta. set (L := ln _). cbn [ln_ String.append]. field. lra.
    + rewrite (lgamma_is m tt g Ltau Lmu "mutau"%string) by (auto; lra). do 2 eexists. split; [|split; [reflexivity|]].
      * unfold BR_taul1l2l3, wc_eff; cbn [sector3 lep3_eqb bind]; refine (f_equal Ok (f_equal (Rmult _) _)).
        apply (D3 (m Ltau) (m Lmu) (sqrt (4 * PI * al) / m Ltau) (g "mutau"%string "Cgamma_taumu"%string) (g "mutau"%string "Cgamma_mutau"%string)); [apply Hk; lra|].
        intro o; destruct o; try reflexivity; try (apply N; reflexivity); apply hc, N; reflexivity.
      * cbv beta. set (L := ln _). cbn [ln_ String.append]. field. lra.
  - intros l l' Hl. destruct Hl as [Hl | Hl]; injection Hl as -> ->.
    + rewrite (lgamma_is m tt g Ltau Lmu "mutau"%string) by (auto; lra). do 2 eexists. split; [|split; [reflexivity|]].
      * unfold BR_taul1l2l3, wc_eff; cbn [sector3 lep3_eqb bind]; refine (f_equal Ok (f_equal (Rmult _) _)).
        apply (D3 (m Ltau) (m Le) (sqrt (4 * PI * al) / m Ltau) (g "mutau"%string "Cgamma_taumu"%string) (g "mutau"%string "Cgamma_mutau"%string)); [apply Hk; lra|].
        intro o; destruct o; try reflexivity; try (apply N; reflexivity); rewrite ?(cdiv_r _ 2), ?(cdiv_r _ 8) by lra; rewrite ?N by reflexivity; apply injective_projections; cbn; ring.
      * cbv beta. set (L := ln _). cbn [ln_ String.append]. field. lra.
    + rewrite (lgamma_is m tt g Ltau Le "taue"%string) by (auto; lra). do 2 eexists. split; [|split; [reflexivity|]].
      * unfold BR_taul1l2l3, wc_eff; cbn [sector3 lep3_eqb bind]; refine (f_equal Ok (f_equal (Rmult _) _)).
        apply (D3 (m Ltau) (m Lmu) (sqrt (4 * PI * al) / m Ltau) (g "taue"%string "Cgamma_taue"%string) (g "taue"%string "Cgamma_etau"%string)); [apply Hk; lra|].
        intro o; destruct o; try reflexivity; try (apply N; reflexivity); rewrite ?(cdiv_r _ 2), ?(cdiv_r _ 8) by lra; rewrite ?N by reflexivity; apply injective_projections; cbn; ring.
      * cbv beta. set (L := ln _). cbn [ln_ String.append]. field. lra.
  - intros GF G. rewrite (lgamma_is m _ g Lmu Le "mue"%string Hm) by auto. do 2 eexists. split; [|split; [reflexivity|]].
    + unfold BR_mu3e, wc_eff; cbn [sector3 lep3_eqb bind]; refine (f_equal Ok (f_equal (Rmult _) _)).
      apply (D3 (m Lmu) (m Le) (sqrt (4 * PI * al) / m Lmu) (g "mue"%string "Cgamma_mue"%string) (g "mue"%string "Cgamma_emu"%string)); [apply Hk; lra|].
      intro o; destruct o; try reflexivity; try (apply N; reflexivity); apply hc, N; reflexivity.
    + cbv beta. set (L := ln _). cbn [ln_ String.append]. field. lra.
  - intros l l' Hl. destruct Hl as [Hl | Hl]; injection Hl as -> ->; unfold BR_taul1l2l3, wc_eff; cbn [sector3 lep3_eqb bind]; f_equal; unfold BR_taumuemu; rewrite ?N by reflexivity;
      rewrite ?a2_conj, ?a2_0; ring.
Qed.
Print Assumptions C169_dipole.
Example C169_dipole_meets : dipole_only (fun s n => if String.eqb n "Cgamma_taumu" then Ci else RtoC 0).
Proof. intros s n H. destruct (String.eqb n "Cgamma_taumu") eqn:E; [|reflexivity]. apply String.eqb_eq in E. subst n. exfalso. apply H. cbn. tauto. Qed.
(** mu -> 3e: as for the tau, with the total rate of muon decay instead of the lifetime *)
Theorem C169_mu3e : forall m GF al, 0 < GF ->
  BR_mu3e m GF al none3 = Ok 0
  /\ forall g, exists v, BR_mu3e m GF al g = Ok v /\ (forall t, BR_mu3e m GF al (scaled t g) = Ok (t ^ 2 * v)) /\ BR_mu3e m GF al (cp g) = Ok v
      /\ (forall g', mirrored g g' -> BR_mu3e m GF al g' = Ok v) /\ (17 / 4 <= ln (m Lmu ^ 2 / m Le ^ 2) -> 0 <= v)
      /\ ((forall n, g "mue"%string n = g "taue"%string (match n with "Cgamma_mue" => "Cgamma_taue" | "Cgamma_emu" => "Cgamma_etau" | "CVLL_eemue" => "CVLL_eetaue" | "CVLR_mueee" => "CVLR_taueee"
             | "CVLR_eemue" => "CVLR_eetaue" | "CVRR_eemue" => "CVRR_eetaue" | "CSRR_eemue" => "CSRR_eetaue" | "CSRR_eeemu" => "CSRR_eeetau" | _ => n end)%string) ->
          forall m', m' Ltau = m Lmu -> m' Le = m Le -> m Lmu <> 0 -> BR_taul1l2l3 m' (192 * PI ^ 3 / (GF ^ 2 * m Lmu ^ 5)) al g Le Le Le = Ok v).
Proof.
  intros m GF al G. pose proof PI_RGT_0 as hp.
  assert (HF : forall g, exists w, wc_eff al (m Lmu) g Lmu Le Le Le = Ok w /\ BR_mu3e m GF al g = Ok (1 / (8 * GF ^ 2) * BR_tau3mu (m Lmu) (m Le) w)) by (intro g; eexists; split; reflexivity).
  split.
  - destruct (HF none3) as (w & E & ->). f_equal. pose proof (eff_none _ _ _ _ _ _ _ E) as Z. unfold BR_tau3mu. rewrite !Z, !a2_0. cbn [fst snd Cplus Cmult Cconj RtoC]. ring.
  - intro g. destruct (HF g) as (w & E & B). eexists. refine (conj B (conj _ (conj _ (conj _ (conj _ _))))).
    + intro t. destruct (HF (scaled t g)) as (w' & E' & ->). destruct (eff_scale _ _ _ t _ _ _ _ _ E) as (w2 & E2 & S2). rewrite E' in E2. injection E2 as <-. f_equal.
      rewrite (proj1 (scale_3 (m Lmu) (m Le) t w w' S2)). ring.
    + destruct (HF (cp g)) as (w' & E' & ->). destruct (eff_cp _ _ _ _ _ _ _ _ E) as (w2 & E2 & S2). rewrite E' in E2. injection E2 as <-. rewrite (proj1 (conj_3 (m Lmu) (m Le) w w' S2)). reflexivity.
    + intros g' Mi. destruct (HF g') as (w' & E' & ->). destruct (eff_mirror _ _ _ _ _ _ _ _ _ Mi E) as (w2 & E2 & S2). rewrite E' in E2. injection E2 as <-. rewrite (proj1 (swap_3 (m Lmu) (m Le) w w' S2)). reflexivity.
    + intro L. apply Rmult_le_pos; [|apply tau3mu_pos; exact L]. left. apply Rdiv_lt_0_compat; [lra|]. apply Rmult_lt_0_compat; [lra | apply pow_lt; exact G].
    + intros Hg m' M1 M2 M0. unfold BR_taul1l2l3, wc_eff. cbn [sector3 lep3_eqb bind]. rewrite M1, M2. f_equal.
      unfold wc_eff in E. cbn [sector3 lep3_eqb bind] in E. injection E as <-. rewrite !Hg. set (b := BR_tau3mu _ _ _). field. lra.
Qed.
Print Assumptions C169_mu3e.

(** ** C170: mu -> e conversion in nuclei *)
Lemma rpow52 (mm : R) : 0 < mm -> Rpower mm (5 / 2) ^ 2 = mm ^ 5.
Proof. intro H. rewrite <- (Rpower_pow 5 mm) by exact H. cbn [pow]. rewrite Rmult_1_r, <- Rpower_plus. f_equal. cbn [INR]. lra. Qed.
(** the rate is that of the squared amplitudes for left- and right-handed electrons in terms of the coefficients: the Fermi constant drops out *)
Theorem C170_rate : forall mm GF pc nu w, 0 < mm -> 0 < GF -> n_capt nu <> 0 ->
  let L := conv_amp mm pc nu (w "Cgamma_mue"%string)
     (w "CVLL_mueuu"%string + w "CVLR_mueuu"%string)%C (w "CVLL_muedd"%string + w "CVLR_muedd"%string)%C
     (w "CSRR_mueuu"%string + w "CSRL_mueuu"%string)%C (w "CSRR_muedd"%string + w "CSRL_muedd"%string)%C (w "CSRR_muess"%string + w "CSRL_muess"%string)%C in
  let R := conv_amp mm pc nu (Cconj (w "Cgamma_emu"%string))
     (w "CVRR_mueuu"%string + w "CVLR_uumue"%string)%C (w "CVRR_muedd"%string + w "CVLR_ddmue"%string)%C
     (Cconj (w "CSRR_emuuu"%string) + Cconj (w "CSRL_emuuu"%string))%C (Cconj (w "CSRR_emudd"%string) + Cconj (w "CSRL_emudd"%string))%C (Cconj (w "CSRR_emuss"%string) + Cconj (w "CSRL_emuss"%string))%C in
  CR_mue mm GF pc nu w = mm ^ 5 * (Cmod L ^ 2 + Cmod R ^ 2) / n_capt nu.
Proof.
  intros mm GF pc nu w Hm HG Hc L R. unfold CR_mue. cbv zeta. set (mm52 := Rpower mm (5 / 2)). set (pf := - sqrt 2 / GF).
  match goal with |- context [Cmod ?a ^ 2 + Cmod ?b ^ 2] => match a with (Cconj _ * _ + _ + _ + _ + _)%C =>
    assert (EL : a = (RtoC (pf / 2 * mm52) * L)%C); [|assert (ER : b = (RtoC (pf / 2 * mm52) * R)%C); [|rewrite EL, ER]] end end.
  - unfold L, conv_amp. rewrite !(cdiv_r _ 2) by lra. apply injective_projections; cbn [fst snd Cplus Cmult Cconj RtoC]; field; lra.
  - unfold R, conv_amp. rewrite !(cdiv_r _ 2) by lra. apply injective_projections; cbn [fst snd Cplus Cmult Cconj RtoC]; field; lra.
  - rewrite !Cmod_scale. assert (E : (pf / 2 * mm52) ^ 2 = mm ^ 5 / (2 * GF ^ 2)).
    { rewrite Rpow_mult_distr. unfold mm52. rewrite rpow52 by exact Hm. unfold pf. replace ((- sqrt 2 / GF / 2) ^ 2) with (sqrt 2 ^ 2 / (4 * GF ^ 2)) by (field; lra).
      rewrite pow2_sqrt by lra. field. lra. }
    rewrite E. field. split; [exact Hc | lra].
Qed.
Print Assumptions C170_rate.
Lemma amp_ext mm pc nu a b c d e f a' b' c' d' e' f' : a = a' -> b = b' -> c = c' -> d = d' -> e = e' -> f = f' ->
  conv_amp mm pc nu a b c d e f = conv_amp mm pc nu a' b' c' d' e' f'.
Proof. intros -> -> -> -> -> ->. reflexivity. Qed.
Lemma amp_scale mm pc nu t (a b c d e f : C) : mm <> 0 -> conv_amp mm pc nu (RtoC t * a)%C (RtoC t * b)%C (RtoC t * c)%C (RtoC t * d)%C (RtoC t * e)%C (RtoC t * f)%C = (RtoC t * conv_amp mm pc nu a b c d e f)%C.
Proof. intro H. unfold conv_amp. ring. Qed.
(** no conversion without new physics; never negative; quadratic; the same for the mirror image and for the CP-conjugate coefficients; symmetric under the simultaneous exchange of u and d quarks
    and of protons and neutrons (the sign of the isovector charge does not change) *)
Theorem C170_laws : forall mm GF pc nu g, 0 < mm -> 0 < GF -> 0 < n_capt nu ->
  0 <= CR_mue mm GF pc nu (g "mue"%string)
  /\ CR_mue mm GF pc nu (none3 "mue"%string) = 0
  /\ (forall t, CR_mue mm GF pc nu (scaled t g "mue"%string) = t ^ 2 * CR_mue mm GF pc nu (g "mue"%string))
  /\ CR_mue mm GF pc nu (cp g "mue"%string) = CR_mue mm GF pc nu (g "mue"%string)
  /\ (forall g', mirrored g g' -> CR_mue mm GF pc nu (g' "mue"%string) = CR_mue mm GF pc nu (g "mue"%string))
  /\ (forall w', isospin_wc (g "mue"%string) w' -> CR_mue mm GF pc (isospin_nu nu) w' = CR_mue mm GF pc nu (g "mue"%string))
  /\ (forall GF', 0 < GF' -> CR_mue mm GF' pc nu (g "mue"%string) = CR_mue mm GF pc nu (g "mue"%string)).
Proof.
  intros mm GF pc nu g Hm HG Hc. assert (Hc0 : n_capt nu <> 0) by lra.
  assert (T : forall t, CR_mue mm GF pc nu (scaled t g "mue"%string) = t ^ 2 * CR_mue mm GF pc nu (g "mue"%string)).
  { intro t. rewrite !C170_rate by assumption. set (w := g "mue"%string). unfold scaled. fold w.
    match goal with |- mm ^ 5 * (Cmod ?a ^ 2 + Cmod ?b ^ 2) / _ = t ^ 2 * (mm ^ 5 * (Cmod ?a' ^ 2 + Cmod ?b' ^ 2) / _) => assert (EL : a = (RtoC t * a')%C); [|assert (ER : b = (RtoC t * b')%C); [|rewrite EL, ER]] end.
    - rewrite <- amp_scale by lra. apply amp_ext; ring.
    - rewrite <- amp_scale by lra. apply amp_ext; apply injective_projections; cbn [fst snd Cplus Cmult Cconj RtoC]; ring.
    - rewrite !Cmod_scale. field. exact Hc0. }
  refine (conj _ (conj _ (conj T (conj _ (conj _ (conj _ _)))))).
  - rewrite C170_rate by assumption. apply Rmult_le_pos; [|left; apply Rinv_0_lt_compat; exact Hc]. apply Rmult_le_pos; [apply pow_le; lra|]. apply Rplus_le_le_0_compat; apply pow2_ge_0.
  - replace 0 with (0 ^ 2 * CR_mue mm GF pc nu (g "mue"%string)) by ring. rewrite <- T. unfold CR_mue, scaled, none3. rewrite !Cmult_0_l. reflexivity.
  - rewrite !C170_rate by assumption. set (w := g "mue"%string). unfold cp. fold w. rewrite !conj2.
    match goal with |- mm ^ 5 * (Cmod ?a ^ 2 + Cmod ?b ^ 2) / _ = mm ^ 5 * (Cmod ?a' ^ 2 + Cmod ?b' ^ 2) / _ => assert (EL : a = Cconj a'); [|assert (ER : b = Cconj b'); [|rewrite EL, ER]] end.
    + unfold conv_amp. apply injective_projections; cbn [fst snd Cplus Cmult Cconj RtoC]; ring.
    + unfold conv_amp. apply injective_projections; cbn [fst snd Cplus Cmult Cconj RtoC]; ring.
    + match goal with |- mm ^ 5 * (Cmod (Cconj ?a) ^ 2 + Cmod (Cconj ?b) ^ 2) / _ = _ => change (Cmod (Cconj a) ^ 2) with (a2 (Cconj a)); change (Cmod (Cconj b) ^ 2) with (a2 (Cconj b)) end. rewrite !a2_conj. reflexivity.
  - intros g' Mi. rewrite !C170_rate by assumption.
    assert (Mq : Forall (fun r => let '(s, a, b, c) := r in g' s a = (if c : bool then Cconj (g s b) else g s b) /\ g' s b = (if c : bool then Cconj (g s a) else g s a)) (mirror_quarks "mue" "mu" "e")).
    { unfold mirrored, mirror_all in Mi. apply Forall_app in Mi as (_ & Mi). apply Forall_app in Mi as (_ & Mi). apply Forall_app in Mi as (_ & Mi). exact Mi. }
    destruct (mirror_at g g' "mue"%string "Cgamma_mue"%string "Cgamma_emu"%string true Mi) as (D1 & D2); [unfold mirror_all; apply in_or_app; left; cbn; tauto|].
    unfold mirror_quarks in Mq. cbn [flat_map List.app String.append] in Mq.
    repeat match type of Mq with Forall _ (_ :: _) => let A := fresh "A" in let B := fresh "B" in pose proof (Forall_inv Mq) as A; apply Forall_inv_tail in Mq; cbv beta iota in A; destruct A as [A B] end. clear Mq.
    repeat match goal with E : g' ?s ?a = _ |- context [g' ?s ?a] => rewrite E end. rewrite !conj2. 
    rewrite Rplus_comm. reflexivity.
  - intros w' (Iq & I1 & I2 & I3 & I4). rewrite !C170_rate by (cbn [isospin_nu n_capt]; assumption). set (w := g "mue"%string) in *.
    apply Forall_forall in Iq.
    repeat match type of Iq with Forall _ (_ :: _) => let A := fresh "A" in pose proof (Forall_inv Iq) as A; apply Forall_inv_tail in Iq; cbn [String.append] in A; destruct A as (? & ? & ?) end. clear Iq.
    rewrite I1, I2, I3, I4. repeat match goal with E : w' ?a = _ |- context [w' ?a] => rewrite E end.
    cbn [isospin_nu n_capt].
    match goal with |- mm ^ 5 * (Cmod ?a ^ 2 + Cmod ?b ^ 2) / _ = mm ^ 5 * (Cmod ?a' ^ 2 + Cmod ?b' ^ 2) / _ => assert (EL : a = a'); [|assert (ER : b = b'); [|rewrite EL, ER; reflexivity]] end;
      unfold conv_amp, isospin_nu; cbn [n_D n_Sp n_Sn n_Vp n_Vn]; ring.
  - intros GF' HG'. rewrite !C170_rate by assumption. reflexivity.
Qed.
Print Assumptions C170_laws.
Example C170_laws_meets : exists g g' : getwc, mirrored g g' /\ g "mue"%string "Cgamma_mue"%string <> RtoC 0.
Proof. exists (fun _ _ => RtoC 1), (fun _ _ => RtoC 1). split; [|intro H; injection H; lra]. apply Forall_forall. intros [[[s a] b] c] _. assert (Cconj (RtoC 1) = RtoC 1) by (apply injective_projections; cbn; ring). destruct c; auto. Qed.
