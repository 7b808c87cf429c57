(** * Theorems about Z and W observables (C159 - C163) *)
From Coq Require Import Reals List Lra Lia String.
From Coquelicot Require Import Coquelicot.
From Verif Require Import Base EW_Model EW_Spec EW_Proofs EW_Proofs2.
Import ListNotations.
Local Open Scope R_scope.

(** parameters with sine 3/5 and cosine 4/5 of the tree-level angle, and an effective angle that agrees with it for all fermions but b *)
Definition ex_par (V : nat -> nat -> C) : ewpar :=
  Ewpar 1 (sqrt 2 * (144 / 625) / PI) 1 1 (9 / 25 / (10010 / 10000)) 1 (14 / 10) (7 / 10) V (1257 / 10) (1732 / 10) (1184 / 10000) 0 (59 / 1000) (fun _ => 0).
Definition ex_V : nat -> nat -> C := fun i j => if Nat.eqb i j then RtoC 1 else RtoC 0.
Example ex_tree V : tree (ex_par V) (3 / 5) (4 / 5).
Proof. unfold tree, ex_par; cbn [p_GF p_mZ p_alpha]. repeat split; try lra. field. apply PI_neq0. Qed.
Example ex_eff V : sin2eff (ex_par V) Fmu = (3 / 5) ^ 2 /\ flatB (3 / 5) (4 / 5) 1 phiWB <> RtoC 0.
Proof.
  split; [unfold sin2eff, ex_par; cbn [p_s2w]; field|]. cbn [flatB]. intro H. apply RtoC_inj in H. lra.
Qed.
Example ex_rows : rows_normalised ex_V.
Proof. intros [|[|i]] Hi; [| |lia]; unfold ex_V; cbn [Nat.eqb]; rewrite !msq; cbn [fst snd RtoC]; ring. Qed.

(** C159: the combinations of operators that field redefinitions turn into bosonic ones (flatB, flatW), added to any coefficients, change neither the W mass
    nor any flavour-changing or neutrino Z width, nor, for effective mixing angles equal to the tree-level one, the widths and asymmetries of
    the charged fermions *)
Theorem C159_Z : forall p s co, tree p s co -> forall b F, F = flatB s co b \/ F = flatW s co b -> forall c,
  mW p (plus c F) = mW p c
  /\ (forall f1 f2, alike f1 f2 -> f1 <> f2 -> GammaZ p (plus c F) f1 f2 = GammaZ p c f1 f2)
  /\ (forall f, neutrino f \/ sin2eff p f = s ^ 2 -> GammaZ p (plus c F) f f = GammaZ p c f f /\ Af_obs p (plus c F) f = Af_obs p c f)
  /\ (forall f, sin2eff p Fe = s ^ 2 -> sin2eff p f = s ^ 2 -> AFB_obs p (plus c F) f = AFB_obs p c f).
Proof.
  intros p s co T b F HF c.
  assert (HV : forall f, neutrino f \/ sin2eff p f = s ^ 2 -> gV_tot p (plus c F) f = gV_tot p c f).
  { intros f Hf. unfold gV_tot. rewrite d_gV_plus.
    assert (E : d_gV p F f f = RtoC 0).
    { destruct HF as [-> | ->]; [rewrite (flatB_gV _ _ _ _ T) | rewrite (flatW_gV _ _ _ _ T)]; f_equal; destruct Hf as [N | E];
        [red in N; rewrite N | rewrite E | red in N; rewrite N | rewrite E]; unfold Rdiv; ring. }
    rewrite E. ring. }
  assert (HA : forall f, gA_tot p (plus c F) f = gA_tot p c f).
  { intros f. unfold gA_tot. rewrite d_gA_plus.
    assert (E : d_gA p F f f = RtoC 0) by (destruct HF as [-> | ->]; [apply (flatB_gA _ _ _ _ T) | apply (flatW_gA _ _ _ _ T)]).
    rewrite E. ring. }
  refine (conj _ (conj _ (conj _ _))).
  - unfold mW. rewrite dmW_plus. destruct HF as [-> | ->]; [rewrite (flatB_mW _ _ _ _ T) | rewrite (flatW_mW _ _ _ _ T)]; ring.
  - intros f1 f2 Ha Hne. rewrite !GammaZ_off by exact Hne. rewrite d_gV_plus, d_gA_plus.
    destruct (flat_off p s co b f1 f2 F HF (alike_sec _ _ Ha) Hne) as [-> ->]. rewrite !Cplus_0_r. reflexivity.
  - intros f Hf. split.
    + rewrite !GammaZ_diag, (HV f Hf), (HA f). reflexivity.
    + unfold Af_obs. rewrite (HV f Hf), (HA f). reflexivity.
  - intros f He Hf. unfold AFB_obs. rewrite (HV Fe (or_intror He)), (HV f (or_intror Hf)), !HA. reflexivity.
Qed.
Print Assumptions C159_Z.

(** the effective vector coupling of every fermion, for any effective angle *)
Theorem C159_coupling : forall p s co, tree p s co -> forall b c f,
  gV_tot p (plus c (flatB s co b)) f = (gV_tot p c f + RtoC (b * charge f * (sin2eff p f - s ^ 2) / (2 * sqrt 2 * p_GF p)))%C
  /\ gV_tot p (plus c (flatW s co b)) f = (gV_tot p c f + RtoC (b * charge f * (sin2eff p f - s ^ 2) / (sqrt 2 * p_GF p)))%C
  /\ gA_tot p (plus c (flatB s co b)) f = gA_tot p c f /\ gA_tot p (plus c (flatW s co b)) f = gA_tot p c f.
Proof.
  intros p s co T b c f. unfold gV_tot, gA_tot. rewrite !d_gV_plus, !d_gA_plus, (flatB_gV _ _ _ _ T), (flatW_gV _ _ _ _ T), (flatB_gA _ _ _ _ T), (flatW_gA _ _ _ _ T).
  repeat split; ring.
Qed.
Print Assumptions C159_coupling.

(** W decays: all of them for the hypercharge combination, those without change of generation for the other *)
Theorem C159_W : forall p s co, tree p s co -> forall b c f1 f2,
  GammaW p (plus c (flatB s co b)) f1 f2 = GammaW p c f1 f2
  /\ (In (f1, f2) [(Fe, Fe); (Fmu, Fmu); (Ftau, Ftau); (Fu, Fd); (Fc, Fs)] -> GammaW p (plus c (flatW s co b)) f1 f2 = GammaW p c f1 f2).
Proof.
  intros p s co T b c f1 f2. unfold GammaW. rewrite !d_gW_plus, (flatB_gW _ _ _ _ T), Cplus_0_r. split; [reflexivity|].
  intro Hin. rewrite (flatW_gW _ _ _ _ T); [rewrite Cplus_0_r; reflexivity|].
  cbn in Hin. repeat destruct Hin as [Hin | Hin]; try contradiction; injection Hin as <- <-; reflexivity.
Qed.
Print Assumptions C159_W.

(** C160: Z widths and asymmetries.  Widths are the SM ones plus the change of the tree-level width by the couplings that the asymmetries measure *)
Theorem C160_couplings : forall p c f, exists gV gA : C,
  GammaZ p c f f = GammaZ p nonp f f + sqrt 2 * p_GF p * p_mZ p ^ 3 / (3 * PI) * colours f *
     (Cmod gV ^ 2 + Cmod gA ^ 2 - (isospin f / 2 - charge f * sin2eff p f) ^ 2 - (isospin f / 2) ^ 2)
  /\ Af_obs p c f = 2 * fst (gV / gA)%C / (1 + fst (gV / gA)%C ^ 2)
  /\ (c = nonp -> gV = RtoC (isospin f / 2 - charge f * sin2eff p f) /\ gA = RtoC (isospin f / 2)).
Proof.
  intros p c f. exists (gV_tot p c f), (gA_tot p c f). refine (conj _ (conj _ _)).
  - rewrite GammaZ_sm. apply GammaZ_diag.
  - reflexivity.
  - intros ->. unfold gV_tot, gA_tot. rewrite nonp_gV, nonp_gA, gV_SM_is, gA_SM_is. split; ring.
Qed.
Print Assumptions C160_couplings.
(** for real couplings the asymmetry is that of the left- and right-handed couplings *)
Theorem C160_asymmetries : forall p c f,
  -1 <= Af_obs p c f <= 1 /\ - (3 / 4) <= AFB_obs p c f <= 3 / 4 /\ AFB_obs p c f = 3 / 4 * Af_obs p c Fe * Af_obs p c f
  /\ (c = nonp -> let gL := isospin f - charge f * sin2eff p f in let gR := - (charge f * sin2eff p f) in
        Af_obs p c f = (gL ^ 2 - gR ^ 2) / (gL ^ 2 + gR ^ 2)).
Proof.
  intros p c f. pose proof (quotbound (fst (gV_tot p c Fe / gA_tot p c Fe)%C)) as He. pose proof (quotbound (fst (gV_tot p c f / gA_tot p c f)%C)) as Hf.
  change (2 * fst (gV_tot p c Fe / gA_tot p c Fe)%C / (1 + fst (gV_tot p c Fe / gA_tot p c Fe)%C ^ 2)) with (Af_obs p c Fe) in He.
  change (2 * fst (gV_tot p c f / gA_tot p c f)%C / (1 + fst (gV_tot p c f / gA_tot p c f)%C ^ 2)) with (Af_obs p c f) in Hf.
  refine (conj Hf (conj _ (conj eq_refl _))).
  - change (AFB_obs p c f) with (3 / 4 * Af_obs p c Fe * Af_obs p c f). set (x := Af_obs p c Fe) in *. set (y := Af_obs p c f) in *.
    assert (-1 <= x * y <= 1) by (split; nra). lra.
  - intros -> gL gR. unfold Af_obs, Af, gV_tot, gA_tot. rewrite nonp_gV, nonp_gA, gV_SM_is, gA_SM_is, !Cplus_0_r.
    assert (Hi : isospin f / 2 <> 0) by (destruct f; cbn; lra).
    rewrite Cdiv_r by exact Hi. cbn [fst snd RtoC Cmult].
    assert (gL = (isospin f / 2 - charge f * sin2eff p f) + isospin f / 2) by (unfold gL; field).
    assert (gR = (isospin f / 2 - charge f * sin2eff p f) - isospin f / 2) by (unfold gR; field).
    set (v := isospin f / 2 - charge f * sin2eff p f) in *. set (a := isospin f / 2) in *. rewrite H, H0.
    assert (0 < a * a) by nra.
    field. repeat split; [|exact Hi|]; nra.
Qed.
Print Assumptions C160_asymmetries.
(** flavour-changing decays: symmetric, non-negative, absent without flavour-changing couplings *)
Theorem C160_fcnc : forall p c f1 f2, alike f1 f2 -> f1 <> f2 ->
  GammaZ p c f1 f2 = GammaZ p c f2 f1
  /\ (0 <= p_GF p -> 0 <= p_mZ p -> 0 <= GammaZ p c f1 f2)
  /\ ((forall i j, i <> j -> c (phil1 i j) = RtoC 0 /\ c (phil3 i j) = RtoC 0 /\ c (phie i j) = RtoC 0 /\ c (phiq1 i j) = RtoC 0 /\ c (phiq3 i j) = RtoC 0
        /\ c (phiu i j) = RtoC 0 /\ c (phid i j) = RtoC 0) -> GammaZ p c f1 f2 = 0)
  /\ BRZ_av p c f1 f2 = 2 * p_tauZ p * GammaZ p c f1 f2.
Proof.
  intros p c f1 f2 Ha Hne. pose proof (alike_sec _ _ Ha) as Hs. pose proof (GammaZ_sym p c f1 f2 Hs) as Hsym.
  refine (conj Hsym (conj _ (conj _ _))).
  - intros G M. rewrite GammaZ_off by exact Hne. apply Rmult_le_pos; [apply Rmult_le_pos; [apply K_pos; assumption | left; apply Nc_pos]|].
    generalize (mod_pos (d_gV p c f1 f2)) (mod_pos (d_gA p c f1 f2)); lra.
  - intro Z. rewrite GammaZ_off by exact Hne.
    assert (E : d_gV p c f1 f2 = RtoC 0 /\ d_gA p c f1 f2 = RtoC 0).
    { destruct (Z 1%nat 2%nat) as (a1 & a2 & a3 & a4 & a5 & a6 & a7); [lia|]. destruct (Z 1%nat 3%nat) as (b1 & b2 & b3 & b4 & b5 & b6 & b7); [lia|].
      destruct (Z 2%nat 3%nat) as (e1 & e2 & e3 & e4 & e5 & e6 & e7); [lia|].
      destruct f1, f2; cbn in Hs; try discriminate; try (exfalso; apply Hne; reflexivity); unfold d_gA, d_gV; cbn;
        rewrite ?a1, ?a2, ?a3, ?a4, ?a5, ?a6, ?a7, ?b1, ?b2, ?b3, ?b4, ?b5, ?b6, ?b7, ?e1, ?e2, ?e3, ?e4, ?e5, ?e6, ?e7; split; ring. }
    destruct E as [-> ->]. rewrite Cmod0. ring.
  - unfold BRZ_av. rewrite <- Hsym. ring.
Qed.
Print Assumptions C160_fcnc.
(** totals: the total width is the sum of all partial widths, ratios and the peak cross section are ratios of these *)
Theorem C160_sums : forall p c,
  GammatotZ p c = GammahadZ p c + (GammaZ p c Fe Fe + GammaZ p c Fmu Fmu + GammaZ p c Ftau Ftau) + 3 * GammaZnu p c
  /\ 3 * GammaZnu p c = GammaZ p c Fnue Fnue + GammaZ p c Fnumu Fnumu + GammaZ p c Fnutau Fnutau
       + 2 * (GammaZ p c Fnue Fnumu + GammaZ p c Fnue Fnutau + GammaZ p c Fnumu Fnutau)
  /\ (GammahadZ p c <> 0 -> Rq p c Fu + Rq p c Fc + Rq p c Fd + Rq p c Fs + Rq p c Fb
       + 2 * (GammaZ p c Fu Fc + GammaZ p c Fd Fs + GammaZ p c Fd Fb + GammaZ p c Fs Fb) / GammahadZ p c = 1
     /\ Rq1q2 p c Fu Fc = (Rq p c Fu + Rq p c Fc) / 2)
  /\ (GammahadZ p c <> 0 -> GammaZ p c Fe Fe <> 0 -> GammaZ p c Fmu Fmu <> 0 -> GammaZ p c Ftau Ftau <> 0 ->
       3 / Rl p c = 1 / Remutau p c Fe + 1 / Remutau p c Fmu + 1 / Remutau p c Ftau)
  /\ (GammatotZ p c <> 0 -> p_mZ p <> 0 -> sigmahad p c = 12 * PI / p_mZ p ^ 2 * (GammaZ p c Fe Fe / GammatotZ p c) * (GammahadZ p c / GammatotZ p c)).
Proof.
  intros p c.
  assert (Eh : GammahadZ p c = GammaZ p c Fu Fu + GammaZ p c Fc Fc + GammaZ p c Fd Fd + GammaZ p c Fs Fs + GammaZ p c Fb Fb
     + 2 * (GammaZ p c Fu Fc + GammaZ p c Fd Fs + GammaZ p c Fd Fb + GammaZ p c Fs Fb)).
  { unfold GammahadZ, sum2. cbn [list_prod map app fold_right fst snd].
    rewrite (GammaZ_sym p c Fc Fu), (GammaZ_sym p c Fs Fd), (GammaZ_sym p c Fb Fd), (GammaZ_sym p c Fb Fs) by reflexivity. ring. }
  assert (En : 3 * GammaZnu p c = GammaZ p c Fnue Fnue + GammaZ p c Fnumu Fnumu + GammaZ p c Fnutau Fnutau
       + 2 * (GammaZ p c Fnue Fnumu + GammaZ p c Fnue Fnutau + GammaZ p c Fnumu Fnutau)).
  { unfold GammaZnu, sum2. cbn [list_prod map app fold_right fst snd].
    rewrite (GammaZ_sym p c Fnumu Fnue), (GammaZ_sym p c Fnutau Fnue), (GammaZ_sym p c Fnutau Fnumu) by reflexivity. field. }
  refine (conj _ (conj En (conj _ (conj _ _)))).
  - unfold GammatotZ, Gammal, sum1. cbn [map fold_right]. field.
  - intro Hh. split; [|unfold Rq1q2, Rq; field; exact Hh]. unfold Rq. rewrite <- !Rdiv_plus_distr. rewrite <- Eh. field. exact Hh.
  - intros Hh He Hm Ht. unfold Rl, Remutau, Gammal, sum1. cbn [map fold_right].
    destruct (Req_dec (GammaZ p c Fe Fe + (GammaZ p c Fmu Fmu + (GammaZ p c Ftau Ftau + 0))) 0) as [E | N].
    + transitivity 0; [unfold Rdiv; rewrite E, !Rmult_0_l, Rinv_0, Rmult_0_r, Rinv_0; ring|].
      replace (1 / (GammahadZ p c / GammaZ p c Fe Fe) + 1 / (GammahadZ p c / GammaZ p c Fmu Fmu) + 1 / (GammahadZ p c / GammaZ p c Ftau Ftau))
        with ((GammaZ p c Fe Fe + (GammaZ p c Fmu Fmu + (GammaZ p c Ftau Ftau + 0))) / GammahadZ p c) by (field; auto). rewrite E. unfold Rdiv; ring.
    + field. rewrite Rplus_0_r in N. auto.
  - intros Htt M. unfold sigmahad. field. auto.
Qed.
Print Assumptions C160_sums.

(** the couplings, for new physics that only enters through the fermion currents: left- and right-handed couplings shifted by the coefficients of the
    left- and right-handed currents (the lower flavour index first); in the last hypothesis the contributions to muon decay cancel *)
Theorem C160_direct : forall p s co, tree p s co -> forall c f1 f2, alike f1 f2 ->
  c phiWB = RtoC 0 -> c phiD = RtoC 0 -> (c (phil3 1 1) + c (phil3 2 2) = c ll_1221 / RtoC 2)%C ->
  let one := if feqb f1 f2 then 1 else 0 in
  let gV0 := one * (isospin f1 / 2 - charge f1 * sin2eff p f1) in let gA0 := one * (isospin f1 / 2) in
  let gV := (RtoC gV0 - (leftcur c f1 f2 + rightcur c f1 f2) * RtoC (1 / (4 * sqrt 2 * p_GF p)))%C in
  let gA := (RtoC gA0 - (leftcur c f1 f2 - rightcur c f1 f2) * RtoC (1 / (4 * sqrt 2 * p_GF p)))%C in
  GammaZ p c f1 f2 = GammaZ p nonp f1 f2 + sqrt 2 * p_GF p * p_mZ p ^ 3 / (3 * PI) * colours f1 * (Cmod gV ^ 2 + Cmod gA ^ 2 - gV0 ^ 2 - gA0 ^ 2)
  /\ (f1 = f2 -> Af_obs p c f1 = 2 * fst (gV / gA)%C / (1 + fst (gV / gA)%C ^ 2))
  /\ mW p c = mW p nonp.
Proof.
  intros p s co T c f1 f2 Ha Hwb HD Hmu.
  assert (HX : (c (phil3 2 2) + c (phil3 1 1) - c ll_1221 / RtoC 2 = RtoC 0)%C) by (rewrite (Cplus_comm (c (phil3 2 2))), Hmu; ring).
  assert (HX' : (c (phil3 1 1) + c (phil3 2 2) - c ll_1221 / RtoC 2 = RtoC 0)%C) by (rewrite Hmu; ring).
  assert (Hb : d_gZb p c = RtoC 0) by (rewrite (d_gZb_is _ _ _ T), HX, HD; ring).
  assert (Hs : d_sh2 p c = RtoC 0) by (rewrite (d_sh2_is _ _ _ T), HX, HD, Hwb; ring).
  pose proof (tG _ _ _ T) as hG. pose proof s2pos as h2.
  assert (Ek : 1 / (4 * sqrt 2 * p_GF p) = / (4 * sqrt 2 * p_GF p)) by (field; lra).
  assert (HgV : d_gV p c f1 f2 = (- ((leftcur c f1 f2 + rightcur c f1 f2) * RtoC (1 / (4 * sqrt 2 * p_GF p))))%C).
  { unfold d_gV. cbv zeta. rewrite Hb, Hs, Ek. pose proof (alike_sec _ _ Ha) as Hsec. destruct f1, f2; cbn in Hsec; try discriminate;
    unfold leftcur, rightcur, at_; cbn [idx srt Nat.leb Nat.ltb sec conj_if feqb gen Nat.min Nat.max]; ring. }
  assert (HgA : d_gA p c f1 f2 = (- ((leftcur c f1 f2 - rightcur c f1 f2) * RtoC (1 / (4 * sqrt 2 * p_GF p))))%C).
  { unfold d_gA, d_gV. cbv zeta. rewrite Hb, Ek. pose proof (alike_sec _ _ Ha) as Hsec. destruct f1, f2; cbn in Hsec; try discriminate;
    unfold leftcur, rightcur, at_; cbn [idx srt Nat.leb Nat.ltb sec conj_if feqb gen Nat.min Nat.max]; ring. }
  intros one gV0 gA0 gV gA. refine (conj _ (conj _ _)).
  - unfold GammaZ. rewrite nonp_gV, nonp_gA. unfold GammaZ_NP. rewrite HgV, HgA. rewrite Nc_is, Cmod0. unfold gV, gA, gV0, gA0, one.
    rewrite <- gV_SM_is, <- gA_SM_is. set (k := 1 / (4 * sqrt 2 * p_GF p)). rewrite !msq.
    destruct (leftcur c f1 f2) as [a b], (rightcur c f1 f2) as [d e].
    destruct (feqb f1 f2); cbn [fst snd RtoC Cmult Cplus Cminus Copp]; ring.
  - intros <-. unfold Af_obs, Af, gV_tot, gA_tot. rewrite HgV, HgA, gV_SM_is, gA_SM_is. unfold gV, gA, gV0, gA0, one. rewrite feqb_refl, !Rmult_1_l. reflexivity.
  - assert (N : dmW_SMEFT p c = dmW_SMEFT p nonp).
    { unfold dmW_SMEFT. rewrite HX', HD, Hwb. unfold nonp. f_equal. rewrite (Cdiv_r _ 2) by lra. ring. }
    unfold mW. rewrite N. reflexivity.
Qed.
Print Assumptions C160_direct.
Definition ex_direct : wcs := fun k => match k with phil1 2 2 => RtoC 1 | phie 1 2 => Ci | phil3 1 1 => RtoC 1 | ll_1221 => RtoC 2 | _ => RtoC 0 end.
Example C160_direct_meets : ex_direct phiWB = RtoC 0 /\ ex_direct phiD = RtoC 0 /\ (ex_direct (phil3 1 1) + ex_direct (phil3 2 2) = ex_direct ll_1221 / RtoC 2)%C
  /\ leftcur ex_direct Fmu Fmu = RtoC 1 /\ rightcur ex_direct Fmu Fe = Ci /\ alike Fmu Fe.
Proof.
  refine (conj eq_refl (conj eq_refl (conj _ (conj _ (conj eq_refl (conj eq_refl eq_refl)))))).
  - cbn [ex_direct]. rewrite (Cdiv_r _ 2) by lra. apply injective_projections; cbn; field.
  - cbn. ring.
Qed.
(** new physics in muon decay (ll_1221 only): the Fermi constant that enters the Z couplings, the mixing angle and the W mass change *)
Definition ll_only (x : R) : wcs := fun k => match k with ll_1221 => RtoC x | _ => RtoC 0 end.
Theorem C160_muon_decay : forall p s co, tree p s co -> forall x f,
  let e := x / (4 * sqrt 2 * p_GF p) in
  gV_tot p (ll_only x) f = RtoC ((isospin f / 2 - charge f * sin2eff p f) * (1 + e) + charge f * (2 * s ^ 2 * co ^ 2 / (co ^ 2 - s ^ 2) * e))
  /\ gA_tot p (ll_only x) f = RtoC (isospin f / 2 * (1 + e))
  /\ mW p (ll_only x) = mW p nonp * (1 + s ^ 2 / (co ^ 2 - s ^ 2) * e)
  /\ GammaW p (ll_only x) Fe Fe = GammaW p nonp Fe Fe + sqrt 2 * p_GF p * p_mW p ^ 3 / (3 * PI) * ((1 / 2 + co ^ 2 / (2 * (co ^ 2 - s ^ 2)) * e) ^ 2 - (1 / 2) ^ 2).
Proof.
  intros p s co T x f e. pose proof (tG _ _ _ T) as hG. pose proof s2pos as h2. pose proof (ts _ _ _ T) as hs. pose proof (tc _ _ _ T) as hc. pose proof (c2h_pos _ _ _ T) as hd.
  assert (Hb : d_gZb p (ll_only x) = RtoC e).
  { rewrite (d_gZb_is _ _ _ T). cbn [ll_only]. rewrite (Cdiv_r _ 2) by lra. unfold e. apply injective_projections; cbn [fst snd RtoC Cmult Cplus Cminus Copp]; field; lra. }
  assert (Hs : d_sh2 p (ll_only x) = RtoC (- (2 * s ^ 2 * co ^ 2 / (co ^ 2 - s ^ 2) * e))).
  { rewrite (d_sh2_is _ _ _ T). cbn [ll_only]. rewrite (Cdiv_r _ 2) by lra. unfold e. apply injective_projections; cbn [fst snd RtoC Cmult Cplus Cminus Copp]; field; lra. }
  refine (conj _ (conj _ (conj _ _))).
  - unfold gV_tot, d_gV. rewrite srt_same, feqb_refl, Hb, Hs, !gV_SM_is. set (w := 2 * s ^ 2 * co ^ 2 / (co ^ 2 - s ^ 2) * e). set (g := isospin f / 2 - charge f * sin2eff p f).
    unfold conj_if. rewrite Nat.ltb_irrefl. destruct f; cbn [sec ll_only charge]; apply injective_projections; cbn [fst snd RtoC Cmult Cplus Cminus Copp]; field; lra.
  - unfold gA_tot, d_gA. rewrite srt_same, feqb_refl. unfold d_gV. rewrite srt_same, feqb_refl, Hb, !gA_SM_is, gV_SM_is. unfold conj_if. rewrite Nat.ltb_irrefl.
    destruct f; cbn [sec ll_only charge isospin]; apply injective_projections; cbn [fst snd RtoC Cmult Cplus Cminus Copp]; field; lra.
  - unfold mW. assert (E1 : dmW_SMEFT p nonp = 0).
    { unfold dmW_SMEFT, nonp. rewrite (Cdiv_r _ 2) by lra. cbn [fst snd RtoC Cmult Cplus Cminus Copp]. ring. }
    assert (E2 : dmW_SMEFT p (ll_only x) = - (s ^ 2 / (co ^ 2 - s ^ 2) * e)).
    { unfold dmW_SMEFT. rewrite (sh_is _ _ _ T), (ch_is _ _ _ T). cbn [ll_only]. rewrite (Cdiv_r _ 2) by lra. unfold e. cbn [fst snd RtoC Cmult Cplus Cminus Copp]. field. lra. }
    rewrite E1, E2. ring.
  - assert (E : d_gW p (ll_only x) Fe Fe = RtoC (co ^ 2 / (2 * (co ^ 2 - s ^ 2)) * e)).
    { unfold d_gW. cbn [idx srt Nat.leb sec]. rewrite (sh_is _ _ _ T), (ch_is _ _ _ T), Hs. cbn [ll_only]. rewrite (Cdiv_r _ (s ^ 2)) by (apply pow_nonzero; lra).
      apply injective_projections; cbn [fst snd RtoC Cmult Cplus Cminus Copp]; field; lra. }
    unfold GammaW. rewrite nonp_gW, E. unfold GammaW_NP. rewrite Cmod0, msq. unfold gWf_SM. cbn [sec feqb Nc fst snd RtoC Cmult]. ring.
Qed.
Print Assumptions C160_muon_decay.
(** the SM: universality, and the values at the reference point of the published expansion (in MeV; their sum is the published total width 2494.24) *)
Theorem C160_sm : forall p,
  GammaZ p nonp Fe Fe = GammaZ p nonp Fmu Fmu /\ GammaZ p nonp Fd Fd = GammaZ p nonp Fs Fs
  /\ GammaZ p nonp Fnue Fnue = GammaZ p nonp Fnumu Fnumu /\ GammaZ p nonp Fnumu Fnumu = GammaZ p nonp Fnutau Fnutau
  /\ (forall f1 f2, f1 <> f2 -> GammaZ p nonp f1 f2 = 0)
  /\ (p_mh p = 125.7 -> p_mt p = 173.2 -> p_alphas p = 0.1184 -> p_mZ p = 91.1876 -> (forall n, p_delta p n = 0) ->
       1000 * GammaZ p nonp Fe Fe = 83.966 /\ 1000 * GammaZ p nonp Ftau Ftau = 83.776 /\ 1000 * GammaZnu p nonp = 167.157
       /\ 1000 * GammaZ p nonp Fu Fu = 299.936 /\ 1000 * GammaZ p nonp Fc Fc = 299.860 /\ 1000 * GammaZ p nonp Fd Fd = 382.770
       /\ 1000 * GammaZ p nonp Fb Fb = 375.724 /\ Rabs (1000 * GammatotZ p nonp - 2494.24) <= 0.001).
Proof.
  intro p. rewrite !GammaZ_sm. refine (conj eq_refl (conj eq_refl (conj eq_refl (conj eq_refl (conj _ _))))).
  - intros f1 f2 H. apply GammaZ_sm_off, H.
  - intros E1 E2 E3 E4 E5.
    assert (L : ln (125.7 / (1257 / 10)) = 0) by (replace (125.7 / (1257 / 10)) with 1 by lra; apply ln_1).
    assert (A : forall f, GammaZ_SM p f = nth 0 (crow f) 0 * (1 / 1000)).
    { intro f. unfold GammaZ_SM, Zobs. rewrite E1, E2, E3, E4, E5, L.
      replace (173.2 / (1732 / 10)) with 1 by lra. replace (0.1184 / (1184 / 10000)) with 1 by lra. replace (91.1876 / (911876 / 10000)) with 1 by lra.
      replace (59 / 1000 / (59 / 1000)) with 1 by lra. cbv zeta. ring. }
    assert (N : GammaZnu p nonp = GammaZ_SM p Fnue).
    { unfold GammaZnu, sum2. cbn [list_prod map app fold_right fst snd]. rewrite !GammaZ_sm, !GammaZ_sm_off by discriminate. unfold GammaZ_SM; cbn [crow zname]. field. }
    rewrite N, !A. cbn [crow nth].
    assert (H : 1000 * GammatotZ p nonp = 2494.239).
    { unfold GammatotZ, GammahadZ, Gammal, sum1, sum2. rewrite N. cbn [list_prod map app fold_right fst snd]. rewrite !GammaZ_sm, !GammaZ_sm_off by discriminate.
      rewrite !A. cbn [crow nth]. lra. }
    rewrite H. repeat split; try lra. unfold Rabs. destruct (Rcase_abs _); lra.
Qed.
Print Assumptions C160_sm.

(** C161: W decays *)
Theorem C161_sm : forall p, rows_normalised (p_V p) ->
  GammalepW p nonp = p_GWlep p /\ GammahadW p nonp = p_GWhad p /\ GammatotW p nonp = p_GWlep p + p_GWhad p
  /\ (forall l l', In l [Fe; Fmu; Ftau] -> In l' [Fe; Fmu; Ftau] -> l <> l' -> GammaW p nonp l l' = 0)
  /\ (p_GWlep p <> 0 -> forall l l', In l [Fe; Fmu; Ftau] -> In l' [Fe; Fmu; Ftau] -> RWlnu p nonp l l' = 1)
  /\ (p_GWhad p <> 0 -> RWcX p nonp = 1 / 2)
  /\ (forall l, In l [Fe; Fmu; Ftau] -> BRWlnu p nonp l = p_GWlep p / 3 / (p_GWlep p + p_GWhad p)).
Proof.
  intros p HV.
  assert (L : forall l, In l [Fe; Fmu; Ftau] -> sum1 [Fe; Fmu; Ftau] (fun nu => GammaW p nonp l nu) = p_GWlep p / 3).
  { intros l Hl. unfold sum1. cbn in Hl. destruct Hl as [<- | [<- | [<- | []]]]; cbn [map fold_right];
      rewrite GammaW_sm_l, !GammaW_sm_ll by (reflexivity || discriminate); ring. }
  assert (Hr : forall q, In q [Fu; Fc] -> sum1 [Fd; Fs; Fb] (fun d => GammaW p nonp q d) = p_GWhad p / 2).
  { intros q Hq. unfold sum1. cbn in Hq. destruct Hq as [<- | [<- | []]]; cbn [map fold_right]; rewrite !GammaW_sm_q by reflexivity; cbn [idx Nat.sub];
      [pose proof (HV 0%nat ltac:(lia)) as U | pose proof (HV 1%nat ltac:(lia)) as U].
    all: match goal with |- ?g / 2 * ?a + (?g / 2 * ?b + (?g / 2 * ?e + 0)) = _ => transitivity (g / 2 * (a + b + e)); [ring|]; rewrite U; ring end. }
  assert (E1 : GammalepW p nonp = p_GWlep p).
  { transitivity (sum1 [Fe; Fmu; Ftau] (fun nu => GammaW p nonp Fe nu) + sum1 [Fe; Fmu; Ftau] (fun nu => GammaW p nonp Fmu nu) + sum1 [Fe; Fmu; Ftau] (fun nu => GammaW p nonp Ftau nu)).
    - unfold GammalepW, sum2, sum1. cbn [list_prod map app fold_right fst snd]. ring.
    - rewrite !L by (cbn; tauto). field. }
  assert (E2 : GammahadW p nonp = p_GWhad p).
  { transitivity (sum1 [Fd; Fs; Fb] (fun d => GammaW p nonp Fu d) + sum1 [Fd; Fs; Fb] (fun d => GammaW p nonp Fc d)).
    - unfold GammahadW, sum2, sum1. cbn [list_prod map app fold_right fst snd]. ring.
    - rewrite !Hr by (cbn; tauto). field. }
  refine (conj E1 (conj E2 (conj _ (conj _ (conj _ (conj _ _)))))).
  - unfold GammatotW. rewrite E1, E2. reflexivity.
  - intros l l' Hl _ Hne. apply GammaW_sm_ll; [|exact Hne]. cbn in Hl. destruct Hl as [<- | [<- | [<- | []]]]; reflexivity.
  - intros H l l' Hl Hl'. unfold RWlnu. rewrite (L l Hl), (L l' Hl'). field. exact H.
  - intro H. unfold RWcX. rewrite (Hr Fc) by (cbn; tauto). rewrite E2. field. exact H.
  - intros l Hl. unfold BRWlnu. rewrite (L l Hl). unfold GammatotW. rewrite E1, E2. reflexivity.
Qed.
Print Assumptions C161_sm.
Example C161_sm_meets : rows_normalised (p_V (ex_par ex_V)) /\ p_GWlep (ex_par ex_V) <> 0 /\ p_GWhad (ex_par ex_V) <> 0.
Proof. refine (conj ex_rows (conj _ _)); cbn; lra. Qed.
(** all branching fractions add up to one, with any new physics *)
Theorem C161_sum : forall p c, GammatotW p c <> 0 ->
  BRWlnu p c Fe + BRWlnu p c Fmu + BRWlnu p c Ftau + GammahadW p c / GammatotW p c = 1
  /\ (BRWlnu p c Fe <> 0 -> RWlnu p c Fmu Fe = BRWlnu p c Fmu / BRWlnu p c Fe /\ RWlnu p c Ftau Fe = BRWlnu p c Ftau / BRWlnu p c Fe).
Proof.
  intros p c H.
  assert (E : GammalepW p c = sum1 [Fe; Fmu; Ftau] (fun nu => GammaW p c Fe nu) + sum1 [Fe; Fmu; Ftau] (fun nu => GammaW p c Fmu nu) + sum1 [Fe; Fmu; Ftau] (fun nu => GammaW p c Ftau nu))
    by (unfold GammalepW, sum2, sum1; cbn [list_prod map app fold_right fst snd]; ring).
  split.
  - unfold BRWlnu. rewrite <- !Rdiv_plus_distr, <- E. change (GammalepW p c + GammahadW p c) with (GammatotW p c). field. exact H.
  - intro N. assert (N' : sum1 [Fe; Fmu; Ftau] (fun nu => GammaW p c Fe nu) <> 0).
    { intro Z. apply N. unfold BRWlnu. rewrite Z. unfold Rdiv. ring. }
    unfold BRWlnu, RWlnu. split; field; auto.
Qed.
Print Assumptions C161_sum.
(** for leptons and for quarks with real CKM elements the change of a width is that of the squared coupling: for new physics in the triplet currents
    (the contributions to muon decay cancelling) the coupling is V/2 (or 1/2 for lepton and neutrino of the same flavour) plus the coefficient *)
Theorem C161_coupling : forall p s co, tree p s co -> forall c f1 f2, (In f1 [Fe; Fmu; Ftau] /\ In f2 [Fe; Fmu; Ftau]) \/ (In f1 [Fu; Fc] /\ In f2 [Fd; Fs; Fb]) ->
  snd (p_V p (idx f1 - 1)%nat (idx f2 - 1)%nat) = 0 ->
  c phiWB = RtoC 0 -> c phiD = RtoC 0 -> (c (phil3 1 1) + c (phil3 2 2) = c ll_1221 / RtoC 2)%C ->
  let g0 := if feqb f1 f2 then RtoC (1 / 2) else match f1 with Fu | Fc => (RtoC (1 / 2) * p_V p (idx f1 - 1)%nat (idx f2 - 1)%nat)%C | _ => RtoC 0 end in
  let g := (g0 + triplet c f1 f2 * RtoC (1 / (2 * sqrt 2 * p_GF p)))%C in
  GammaW p c f1 f2 = GammaW p nonp f1 f2 + sqrt 2 * p_GF p * p_mW p ^ 3 / (3 * PI) * colours f1 * (Cmod g ^ 2 - Cmod g0 ^ 2).
Proof.
  intros p s co T c f1 f2 Hf HV Hwb HD Hmu g0 g.
  assert (HX : (c (phil3 2 2) + c (phil3 1 1) - c ll_1221 / RtoC 2 = RtoC 0)%C) by (rewrite (Cplus_comm (c (phil3 2 2))), Hmu; ring).
  assert (Hs : d_sh2 p c = RtoC 0) by (rewrite (d_sh2_is _ _ _ T), HX, HD, Hwb; ring).
  pose proof (tG _ _ _ T) as hG. pose proof s2pos as h2.
  assert (Ek : 1 / (2 * sqrt 2 * p_GF p) = / (2 * sqrt 2 * p_GF p)) by (field; lra).
  assert (Hd : d_gW p c f1 f2 = (triplet c f1 f2 * RtoC (1 / (2 * sqrt 2 * p_GF p)))%C).
  { unfold d_gW. rewrite Hs, Hwb, Ek. unfold Cdiv.
    assert (Et : c (match sec f1 with Sl => phil3 (fst (srt (idx f1) (idx f2))) (snd (srt (idx f1) (idx f2))) | _ => phiq3 (fst (srt (idx f1) (idx f2))) (snd (srt (idx f1) (idx f2))) end) = triplet c f1 f2).
    { cbn in Hf. destruct Hf as [[H1 H2] | [H1 H2]]; repeat destruct H1 as [<- | H1]; try contradiction; repeat destruct H2 as [<- | H2]; try contradiction; reflexivity. }
    destruct (srt (idx f1) (idx f2)) as [i j]. cbn [fst snd] in Et. rewrite Et. ring. }
  assert (H0 : gWf_SM p f1 f2 = g0).
  { unfold gWf_SM, g0. rewrite (Cdiv_r _ 2) by lra. replace (/ 2) with (1 / 2) by field.
    cbn in Hf. destruct Hf as [[H1 H2] | [H1 H2]]; repeat destruct H1 as [<- | H1]; try contradiction; repeat destruct H2 as [<- | H2]; try contradiction; reflexivity. }
  assert (Hi : snd g0 = 0).
  { unfold g0. destruct (feqb f1 f2); [reflexivity|]. destruct f1; try reflexivity; destruct (p_V _ _ _); cbn in HV |- *; subst; ring. }
  unfold GammaW. rewrite nonp_gW. unfold GammaW_NP. rewrite Cmod0, Nc_is, Hd, H0. unfold g. set (k := 1 / (2 * sqrt 2 * p_GF p)). rewrite !msq.
  destruct g0 as [x y], (triplet c f1 f2) as [u v]. cbn [fst snd RtoC Cmult Cplus] in *. subst y. unfold Rdiv. ring.
Qed.
Print Assumptions C161_coupling.
Example C161_coupling_meets : snd (p_V (ex_par ex_V) (idx Fc - 1)%nat (idx Fb - 1)%nat) = 0 /\ triplet (fun k => match k with phiq3 2 3 => Ci | _ => RtoC 0 end) Fc Fb = Ci.
Proof. split; reflexivity. Qed.

(** C162: flavour-universal new physics (here: phiWB) gives the W decay W -> e nu_mu a width *)
Definition ex_phiWB : wcs := fun k => match k with phiWB => RtoC 1 | _ => RtoC 0 end.
Theorem C162_refuted : ~ (forall p s co, tree p s co -> 0 < p_mW p -> forall c,
  (forall k, k <> phiWB -> c k = RtoC 0) -> GammaW p c Fe Fmu = 0).
Proof.
  intro H. specialize (H (ex_par ex_V) (3 / 5) (4 / 5) (ex_tree ex_V) ltac:(cbn; lra) ex_phiWB).
  assert (H0 : forall k, k <> phiWB -> ex_phiWB k = RtoC 0) by (intros [] N; cbn; try reflexivity; contradiction).
  specialize (H H0). clear H0.
  unfold GammaW, GammaW_SM, gWf_SM, GammaW_NP in H. cbn [sec feqb] in H. rewrite Cmod0 in H.
  assert (E : d_gW (ex_par ex_V) ex_phiWB Fe Fmu = RtoC (- (6 / 7) / sqrt 2)).
  { unfold d_gW. cbn [idx srt Nat.leb sec]. rewrite (sh_is _ _ _ (ex_tree ex_V)), (ch_is _ _ _ (ex_tree ex_V)), (d_sh2_is _ _ _ (ex_tree ex_V)).
    cbn [ex_phiWB]. rewrite (Cdiv_r _ ((3 / 5) ^ 2)) by lra. rewrite (Cdiv_r _ 2) by lra. generalize s2pos; intro h2.
    apply injective_projections; cbn [fst snd RtoC Cmult Cplus Cminus Copp ex_par p_GF]; field; lra. }
  rewrite E, msq in H. cbn [fst snd RtoC Cmult ex_par p_GF p_mW p_GWlep Nc] in H.
  generalize s2pos PI_RGT_0 s2sq; intros h2 hp hq.
  assert (E2 : (- (6 / 7) / sqrt 2) ^ 2 = 18 / 49).
  { replace ((- (6 / 7) / sqrt 2) ^ 2) with (36 / 49 / (sqrt 2 * sqrt 2)) by (field; lra). rewrite hq. field. }
  rewrite E2 in H.
  assert (0 < sqrt 2 * 1 * 1 ^ 3 / (3 * PI) * 1 * (18 / 49)).
  { repeat apply Rmult_lt_0_compat; try lra. apply Rinv_0_lt_compat; lra. }
  replace (2 * (0 * (- (6 / 7) / sqrt 2) - 0 * 0) + (18 / 49 + 0 ^ 2)) with (18 / 49) in H by ring. lra.
Qed.
Print Assumptions C162_refuted.

(** C163: the phase of the b field is conventional: multiplying V_ub and the coefficient phiq3_13 by the same phase must not change W -> u b *)
Definition rephase_V (z : C) (V : nat -> nat -> C) : nat -> nat -> C := fun i j => if Nat.eqb j 2 then (z * V i j)%C else V i j.
Definition rephase_c (z : C) (c : wcs) : wcs := fun k => match k with phiq3 1 3 => (z * c (phiq3 1 3))%C | _ => c k end.
Definition with_V (p : ewpar) (V : nat -> nat -> C) : ewpar :=
  Ewpar (p_GF p) (p_alpha p) (p_mZ p) (p_mW p) (p_s2w p) (p_tauZ p) (p_GWhad p) (p_GWlep p) V (p_mh p) (p_mt p) (p_alphas p) (p_Dhad p) (p_Dlep p) (p_delta p).
Definition ex_phiq3 : wcs := fun k => match k with phiq3 1 3 => RtoC 1 | _ => RtoC 0 end.
Definition perm_V : nat -> nat -> C := fun i j => match i, j with 0%nat, 2%nat | 1%nat, 1%nat | 2%nat, 0%nat => RtoC 1 | _, _ => RtoC 0 end.
Theorem C163_refuted : ~ (forall p s co, tree p s co -> 0 < p_mW p -> forall z, Cmod z = 1 -> forall c,
  GammaW (with_V p (rephase_V z (p_V p))) (rephase_c z c) Fu Fb = GammaW p c Fu Fb).
Proof.
  intro H. specialize (H (ex_par perm_V) (3 / 5) (4 / 5) (ex_tree perm_V) ltac:(cbn; lra) Ci).
  assert (Hm : Cmod Ci = 1) by (unfold Cmod, Ci; cbn; rewrite Rmult_0_l, Rplus_0_l, !Rmult_1_r; apply sqrt_1).
  specialize (H Hm ex_phiq3).
  assert (T' : tree (with_V (ex_par perm_V) (rephase_V Ci (p_V (ex_par perm_V)))) (3 / 5) (4 / 5)) by (destruct (ex_tree perm_V) as (a & b & c & d & e & f); repeat split; assumption).
  unfold GammaW, GammaW_SM, gWf_SM, GammaW_NP in H. cbn [sec idx Nat.sub] in H.
  generalize s2pos PI_RGT_0; intros h2 hp.
  assert (E1 : d_gW (ex_par perm_V) ex_phiq3 Fu Fb = RtoC (1 / (2 * sqrt 2))).
  { unfold d_gW. cbn [idx srt Nat.leb sec]. rewrite (d_sh2_is _ _ _ (ex_tree perm_V)). cbn [ex_phiq3]. unfold Cdiv.
    rewrite !Cmult_0_r, Cplus_0_r. unfold Cminus. rewrite !Cmult_0_l, Copp_0, !Cplus_0_r, !Cmult_0_r, !Cplus_0_r, !Cmult_0_r, !Cmult_0_l.
    apply injective_projections; cbn [fst snd RtoC Cmult Cplus Copp ex_par p_GF]; field; lra. }
  assert (E2 : d_gW (with_V (ex_par perm_V) (rephase_V Ci (p_V (ex_par perm_V)))) (rephase_c Ci ex_phiq3) Fu Fb = (RtoC (1 / (2 * sqrt 2)) * Ci)%C).
  { unfold d_gW. cbn [idx srt Nat.leb sec]. rewrite (d_sh2_is _ _ _ T'). cbn [rephase_c ex_phiq3]. unfold Cdiv.
    rewrite !Cmult_0_r, Cplus_0_r. unfold Cminus. rewrite !Cmult_0_l, Copp_0, !Cplus_0_r, !Cmult_0_r, !Cplus_0_r, !Cmult_0_r, !Cmult_0_l.
    apply injective_projections; cbn [fst snd RtoC Cmult Cplus Copp ex_par with_V p_GF Ci]; field; lra. }
  rewrite E1, E2 in H. rewrite !(Cdiv_r _ 2) in H by lra. rewrite !msq in H.
  cbn [with_V ex_par p_V p_GF p_mW p_GWhad rephase_V perm_V Nat.eqb Nc fst snd RtoC Cmult Ci] in H.
  set (r := 1 / (2 * sqrt 2)) in *. assert (0 < r) by (unfold r; apply Rdiv_lt_0_compat; lra).
  set (K := sqrt 2 * 1 * 1 ^ 3 / (3 * PI) * 3) in *.
  assert (0 < K) by (unfold K; repeat apply Rmult_lt_0_compat; try lra; apply Rinv_0_lt_compat; lra).
  assert (0 < K * r) by (apply Rmult_lt_0_compat; assumption). nra.
Qed.
Print Assumptions C163_refuted.
