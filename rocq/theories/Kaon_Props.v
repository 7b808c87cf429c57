(** * Theorems about kaon decays: C198 - C205 *)
From Coq Require Import Reals Lra.
From Coquelicot Require Import Coquelicot.
From Coq Require Import String List Ascii Permutation.
From Verif Require Import Base Basics_Model Basics_Proofs Angular_Model Angular_Spec Angular_Proofs Angular_Proofs3 Decays_Model Decays_Spec Decays_Proofs Decays_Proofs2 Decays_Proofs3 Decays_Proofs4 Decays_Proofs5 Decays_Props WCtot_Model Kaon_Model.
Import ListNotations.
Local Open Scope R_scope.

(** ** C198: K0 -> l l *)
Definition zero8 : wc8 := Wc8 (RtoC 0) (RtoC 0) (RtoC 0) (RtoC 0) (RtoC 0) (RtoC 0) (RtoC 0) (RtoC 0).
(** equal shifts of the coefficients and their primed partners *)
Definition shift8 (w : wc8) (a b c e : C) : wc8 := Wc8 (c9 w + a)%C (c9p w + a)%C (c10 w + b)%C (c10p w + b)%C (cP w + c)%C (cPp w + c)%C (cS w + e)%C (cSp w + e)%C.
Definition open_ll (p : kpar) (l1 l2 : lep3) : Prop := 0 < kp_ml p l1 /\ 0 < kp_ml p l2 /\ kp_ml p l1 + kp_ml p l2 <= kp_mK p /\ 0 <= kp_tau p KL /\ 0 <= kp_tau p KS.

Theorem C198_nonnegative (p : kpar) (ct cc : R) (np : wc8) (K : k0) (l1 l2 : lep3) (ld : bool) : open_ll p l1 l2 -> K = KL \/ l1 = l2 ->
  exists v, br_kll p ct cc np K l1 l2 ld = Ok v /\ 0 <= v.
Proof.
  intros (a & b & m & t & t') D. unfold br_kll. cbv zeta. set (w := kll_wc p ct cc np l1 l2).
  assert (E : exists A B : C, kll_eff p w K l1 l2 ld = Ok (A, B)).
  { unfold kll_eff. destruct (kll_amplitudes p w l1 l2) as (P & Sa). destruct (if (negb (lep3_eqb l1 l2) || negb ld)%bool then _ else _) as (SLD & PLD).
    destruct K; [eexists; eexists; reflexivity |]. destruct D as [D | D]; [discriminate |]. subst l2. assert (Q : lep3_eqb l1 l1 = true) by (destruct l1; reflexivity). rewrite Q. eexists; eexists; reflexivity. }
  destruct E as (A & B & E). rewrite E. cbn [bind]. eexists. split; [reflexivity |].
  assert (M : 0 < kp_mK p) by lra. pose proof PI_RGT_0 as pi.
  apply Rmult_le_pos.
  - apply Rmult_le_pos; [| apply pow2_ge_0]. apply Rmult_le_pos.
    + apply Rmult_le_pos; [| destruct K; assumption]. apply Rmult_le_pos; [| apply pow_le; lra].
      apply Rmult_le_pos; [| left; apply Rinv_0_lt_compat; exact pi]. apply Rmult_le_pos; [| lra]. apply Rmult_le_pos; [lra | apply pow2_ge_0].
    + apply Rmult_le_pos; [apply sqrt_pos |]. left. apply Rinv_0_lt_compat. apply pow_lt. exact M.
  - assert (X : forall x y : R, 0 <= x ^ 2 * y ^ 2) by (intros x y; apply Rmult_le_pos; apply pow2_ge_0). pose proof (X (sqrt (1 - (kp_ml p l1 - kp_ml p l2) ^ 2 / kp_mK p ^ 2)) (Cmod A)). pose proof (X (sqrt (1 - (kp_ml p l1 + kp_ml p l2) ^ 2 / kp_mK p ^ 2)) (Cmod B)). lra.
Qed.
(** only the differences of the coefficients and their primed partners enter *)
Theorem C198_differences (p : kpar) (ct cc : R) (np : wc8) (a b c e : C) (K : k0) (l1 l2 : lep3) (ld : bool) :
  br_kll p ct cc (shift8 np a b c e) K l1 l2 ld = br_kll p ct cc np K l1 l2 ld.
Proof.
  unfold br_kll. cbv zeta. assert (E : kll_amplitudes p (kll_wc p ct cc (shift8 np a b c e) l1 l2) l1 l2 = kll_amplitudes p (kll_wc p ct cc np l1 l2) l1 l2).
  { assert (D : forall x y z : C, (x + z - (y + z))%C = (x - y)%C) by (intros; ring). assert (D' : forall u x y z : C, (u + (x + z) - (y + z))%C = (u + x - y)%C) by (intros; ring).
    unfold kll_amplitudes, kll_wc, shift8. cbv zeta. destruct (lep3_eqb l1 l2); cbn [c9 c9p c10 c10p cP cPp cS cSp]; rewrite !D, ?D'; reflexivity. }
  unfold kll_eff. rewrite E. reflexivity.
Qed.
(** in the Standard Model the coefficients of top and charm enter as xi_t C_t + xi_c C_c; there is no scalar amplitude of short distance; helicity suppression *)
Theorem C198_SM (p : kpar) (ct cc : R) (l : lep3) : open_ll p l l -> kp_xt p <> RtoC 0 -> kp_m p KL <> 0 -> kp_m p KS <> 0 -> kp_s2w p <> 0 ->
  let mK := kp_mK p in let m := kp_ml p l in
  let beta := sqrt (1 - 4 * m ^ 2 / mK ^ 2) in
  let xi := (kp_xt p * RtoC ct + kp_xc p * RtoC cc)%C in
  let common := kp_GF p ^ 2 * kp_alpha p ^ 2 * kp_f p ^ 2 * mK ^ 3 / (8 * PI ^ 3) in
  br_kll p ct cc zero8 KL l l true = Ok (kp_tau p KL * (m ^ 2 * beta) * (common *
    ((fst xi / mK - 202 / 1000000 * kp_chi p / (kp_m p KL * kp_s2w p)) ^ 2 + (202 / 1000000 * (521 / 100) / (kp_m p KL * kp_s2w p)) ^ 2))) /\
  br_kll p ct cc zero8 KS l l true = Ok (kp_tau p KS * (m ^ 2 * beta) * (common *
    ((snd xi / mK) ^ 2 + beta ^ 2 * (249 / 1000000 / (kp_m p KS * kp_s2w p)) ^ 2 * ((2821 / 1000) ^ 2 + (1216 / 1000) ^ 2)))).
Proof.
  intros (a & _ & m2 & t & t') X ML MS W mK m beta xi common. assert (M : 0 < mK) by (unfold mK; lra). pose proof PI_RGT_0 as pi.
  assert (Q : lep3_eqb l l = true) by (destruct l; reflexivity).
  assert (A : kll_amplitudes p (kll_wc p ct cc zero8 l l) l l = ((RtoC (2 * m / mK) * xi)%C, RtoC 0)).
  { unfold kll_amplitudes, kll_wc, zero8. rewrite Q. cbv zeta. cbn [c9 c9p c10 c10p cP cPp cS cSp]. fold m mK. unfold xi. apply injective_projections; cbn [fst snd].
    - replace (m + m) with (2 * m) by ring. field. exact X.
    - replace (m - m) with 0 by ring. unfold Rdiv. rewrite Rmult_0_l. ring. }
  assert (B : sqrt (lambda_K (mK ^ 2) (m ^ 2) (m ^ 2)) / mK ^ 2 = beta).
  { assert (s : sqrt (mK ^ 2 * mK ^ 2) = mK ^ 2) by (rewrite sqrt_square; [reflexivity | apply pow2_ge_0]). assert (M2 : 0 < mK ^ 2) by (apply pow_lt; exact M). rewrite <- s at 2. rewrite <- sqrt_div_alt by (apply Rmult_lt_0_compat; exact M2). unfold beta. f_equal. unfold lambda_K.
    assert (pos : 0 <= mK ^ 2 * (mK ^ 2 - 4 * m ^ 2)). { apply Rmult_le_pos; [lra |]. fold m mK in m2. assert (0 <= (mK - 2 * m) * (mK + 2 * m)) by (apply Rmult_le_pos; unfold m in *; lra). lra. }
    cbv zeta. destruct (Rlt_dec _ 0) as [n | n]; [exfalso; assert (e : (mK ^ 2) ^ 2 + (m ^ 2) ^ 2 + (m ^ 2) ^ 2 - 2 * (mK ^ 2 * m ^ 2 + m ^ 2 * m ^ 2 + mK ^ 2 * m ^ 2) = mK ^ 2 * (mK ^ 2 - 4 * m ^ 2)) by ring; rewrite e in n; lra |]. field. lra. }
  assert (R2 : sqrt 2 ^ 2 = 2) by (apply pow2_sqrt; lra).
  assert (N : 2 * Rabs (4 * kp_GF p / sqrt 2 * kp_alpha p / (4 * PI)) ^ 2 / 32 / PI * mK ^ 3 = kp_GF p ^ 2 * kp_alpha p ^ 2 * mK ^ 3 / (32 * PI ^ 3)).
  { rewrite pow2_abs. assert (s2 : sqrt 2 <> 0) by (intros z; rewrite z in R2; lra).
    replace ((4 * kp_GF p / sqrt 2 * kp_alpha p / (4 * PI)) ^ 2) with (kp_GF p ^ 2 * kp_alpha p ^ 2 / (sqrt 2 ^ 2 * PI ^ 2)) by (field; split; lra || exact s2). rewrite R2. field. lra. }
  assert (bm : sqrt (1 - (m - m) ^ 2 / mK ^ 2) ^ 2 = 1). { replace (1 - (m - m) ^ 2 / mK ^ 2) with 1 by (field; lra). rewrite sqrt_1. ring. }
  assert (bp : sqrt (1 - (m + m) ^ 2 / mK ^ 2) = beta) by (unfold beta; f_equal; field; lra).
  split; unfold br_kll; cbv zeta; unfold kll_eff; rewrite A, Q; cbn [negb orb]; unfold kll_LD; cbv zeta; cbn [bind]; fold m mK; rewrite B, N, bm, bp, !cmod_sq; unfold Re, Im; apply (f_equal (@Ok R)); unfold common, beta.
  - cbn [fst snd Cplus Cmult Copp RtoC]. field. repeat split; lra.
  - cbn [fst snd Cplus Cmult Copp RtoC]. field. repeat split; lra.
Qed.
(** K_L -> e mu: the two orders give the same sum *)
Theorem C198_sum_symmetric (p : kpar) (ct cc : R) (np : lep3 -> lep3 -> wc8) : open_ll p Le Lmu ->
  exists a b, br_kll p ct cc (np Le Lmu) KL Le Lmu true = Ok a /\ br_kll p ct cc (np Lmu Le) KL Lmu Le true = Ok b /\ 0 <= a /\ 0 <= b /\
    br_kll_lsum p ct cc np KL Le Lmu = Ok (a + b) /\ br_kll_lsum p ct cc np KL Lmu Le = Ok (a + b).
Proof.
  intros O. assert (O' : open_ll p Lmu Le) by (unfold open_ll in *; lra).
  destruct (C198_nonnegative p ct cc (np Le Lmu) KL Le Lmu true O (or_introl eq_refl)) as (a & A & A0). destruct (C198_nonnegative p ct cc (np Lmu Le) KL Lmu Le true O' (or_introl eq_refl)) as (b & B & B0).
  exists a, b. unfold br_kll_lsum. rewrite A, B. cbn [bind]. refine (conj eq_refl (conj eq_refl (conj A0 (conj B0 (conj eq_refl _))))). f_equal. ring.
Qed.

(** ** C199: BR(KS->emu,mue) never has a value *)
Theorem C199_refuted (p : kpar) (ct cc : R) (np : lep3 -> lep3 -> wc8) (l1 l2 : lep3) : l1 <> l2 -> br_kll_lsum p ct cc np KS l1 l2 = Err UnboundLocalError.
Proof.
  intros N. unfold br_kll_lsum, br_kll. cbv zeta. unfold kll_eff. destruct (kll_amplitudes _ _ _ _) as (P & Sa).
  assert (Q : lep3_eqb l1 l2 = false) by (destruct l1, l2; try reflexivity; contradiction N; reflexivity). rewrite Q. reflexivity.
Qed.

(** ** C200: K -> pi l nu *)
(** K_L, K_S decay to charged, K+ to neutral pions *)
Definition kpi_consistent (k : kpi) : Prop := meson (kd k) = match kname k with KPlus => "pi0"%string | _ => "pi+"%string end.
(** isospin breaking of the form factors for K+, electromagnetic corrections by name for K0 *)
Definition kpi_correction (k : kpi) (l : lep3) : R :=
  match kname k with
  | KPlus => (1 + delta_ff k) ^ 2
  | _ => (1 + delta_EM k (match l with Le => "K0e3 delta_EM" | Lmu => "K0mu3 delta_EM" | Ltau => "K0tau3 delta_EM" end)%string) ^ 2
  end.
Lemma im_scal (s : R) (a b : C) : snd (RtoC s * a * Cconj (RtoC s * b))%C = s ^ 2 * snd (a * Cconj b)%C.
Proof. cbn [fst snd Cmult Cconj RtoC]. ring. Qed.
Lemma re_scal (s : R) (a b : C) : fst (RtoC s * a * Cconj (RtoC s * b))%C = s ^ 2 * fst (a * Cconj b)%C.
Proof. cbn [fst snd Cmult Cconj RtoC]. ring. Qed.
Lemma mod_scal (s : R) (a : C) : Cmod (RtoC s * a)%C ^ 2 = s ^ 2 * Cmod a ^ 2.
Proof. rewrite Cmod_mult, Cmod_R, Rpow_mult_distr, pow2_abs. reflexivity. Qed.
Definition pscal (s : R) (h : pamps) : pamps := PAmps (RtoC s * pV h)%C (RtoC s * pA h)%C (RtoC s * pS h)%C (RtoC s * pP h)%C (RtoC s * pT h)%C (RtoC s * pTt h)%C.
Lemma rate_scal (s : R) (h : pamps) (q2 mB mP m1 m2 : R) :
  p_dGdq2 (angularcoeffs_general_p (pscal s h) q2 mB mP m1 m2) = s ^ 2 * p_dGdq2 (angularcoeffs_general_p h q2 mB mP m1 m2).
Proof.
  unfold p_dGdq2, angularcoeffs_general_p. cbn [Ja Jc]. unfold angularcoeffs_general_Gbasis_p. cbv zeta. cbn [Gp0 Gp2 pscal pV pA pS pP pT pTt].
  rewrite !im_scal, ?re_scal, !mod_scal. generalize (Cmod (pV h) ^ 2) (Cmod (pA h) ^ 2) (Cmod (pS h) ^ 2) (Cmod (pP h) ^ 2) (Cmod (pT h) ^ 2) (Cmod (pTt h) ^ 2). 
  generalize (snd (pV h * Cconj (pTt h))%C) (snd (pA h * Cconj (pT h))%C). intros.
  generalize (phase_space q2 mB (lambda_K (mB ^ 2) (mP ^ 2) q2) (lambda_K q2 (m1 ^ 2) (m2 ^ 2))). intros ps. generalize (lambda_K q2 (m1 ^ 2) (m2 ^ 2)). intros la.
  generalize (sqrt (m1 ^ 2 + la / (4 * q2))) (sqrt (m2 ^ 2 + la / (4 * q2))) (sqrt 2). intros e1 e2 w2. unfold Rdiv. generalize (/ (3 * q2)) (/ q2) (/ (12 * q2)) (/ 2) (/ 3). intros. ring.
Qed.
Lemma amps_scal (q2 mB mP mh ml m1 m2 s : R) (ff : ffkey -> R) (wc : wckey -> C) (N : C) :
  helicity_amps_p q2 mB mP mh ml m1 m2 (fun f => s * ff f) wc N = pscal s (helicity_amps_p q2 mB mP mh ml m1 m2 ff wc N).
Proof.
  unfold helicity_amps_p, pscal. cbv zeta. cbn [pV pA pS pP pT pTt]. f_equal; rewrite ?(RtoC_mult s), ?RtoC_mult; unfold Cdiv; ring.
Qed.

(** the spectrum (differential in q2) is that of a P -> P l nu decay with the couplings and form factors of the theory (helicity amplitudes squared, integrated over the angle), times the corrections; zero outside of phase space *)
Lemma kpi_rate (k : kpi) (l : lep3) (q2 : R) : well_posed (kd k) -> in_range (kd k) l q2 ->
  p_dGdq2 (kpi_angularcoeff k q2 l) = (match kname k with KPlus => (1 + delta_ff k) ^ 2 | _ => 1 end) * RInt (fun th => decay_density_p (kd k) l q2 th) 0 PI.
Proof.
  intros W I. rewrite <- prate_density, prate_is by assumption. unfold kpi_angularcoeff, over_nu.
  assert (E : forall nu, p_dGdq2 (kpi_angularcoeff_nu k q2 l nu) = (match kname k with KPlus => (1 + delta_ff k) ^ 2 | _ => 1 end) * p_dGdq2 (angularcoeffs_general_p (pamps_lnu (kd k) l nu q2) q2 (m_B (kd k)) (m_M (kd k)) (m_lep (kd k) l) 0)).
  { intros nu. unfold kpi_angularcoeff_nu. cbv zeta. unfold kpi_ff. destruct (kname k).
    - rewrite Rmult_1_l. reflexivity.
    - rewrite Rmult_1_l. reflexivity.
    - rewrite amps_scal, rate_scal. rewrite (Rplus_comm 1). reflexivity. }
  rewrite !Rmult_plus_distr_l, <- !E. unfold p_dGdq2. cbn [Ja Jc]. field.
Qed.
Theorem C200_spectrum (k : kpi) (l : lep3) (q2 : R) : kpi_consistent k -> well_posed (kd k) ->
  (in_range (kd k) l q2 -> kpi_dBRdq2 k q2 l = kpi_correction k l * (share neutral_p (meson (kd k)) * tau_B (kd k) * RInt (fun th => decay_density_p (kd k) l q2 th) 0 PI)) /\
  (~ in_range (kd k) l q2 -> kpi_dBRdq2 k q2 l = 0) /\ 0 <= kpi_dBRdq2 k q2 l.
Proof.
  intros K W.
  assert (A : in_range (kd k) l q2 -> kpi_dBRdq2 k q2 l = kpi_correction k l * (share neutral_p (meson (kd k)) * tau_B (kd k) * RInt (fun th => decay_density_p (kd k) l q2 th) 0 PI)).
  { intros I. pose proof (kpi_rate k l q2 W I) as E. unfold in_range, endpoint in I. unfold kpi_dBRdq2. destruct (Rlt_dec q2 _) as [n | n]; [lra |]. destruct (Rlt_dec _ q2) as [m | m]; [lra |].
    cbv zeta. fold (p_dGdq2 (kpi_angularcoeff k q2 l)). rewrite E. unfold kpi_correction, share, neutral_p, kpi_consistent in *. rewrite K. destruct (kname k), l; cbn; toR; field. }
  assert (B : ~ in_range (kd k) l q2 -> kpi_dBRdq2 k q2 l = 0).
  { intros N. unfold kpi_dBRdq2, in_range, endpoint in *. destruct (Rlt_dec q2 _) as [n | n]; [reflexivity |]. destruct (Rlt_dec _ q2) as [m | m]; [reflexivity |]. exfalso. apply N. lra. }
  refine (conj A (conj B _)). unfold in_range in *. destruct (Rle_dec (m_lep (kd k) l ^ 2) q2) as [x | x]; [destruct (Rle_dec q2 (endpoint (kd k))) as [y | y] |].
  - rewrite A by (split; assumption). apply Rmult_le_pos; [unfold kpi_correction; destruct (kname k); apply pow2_ge_0 |]. rewrite <- prate_density by (try assumption; split; assumption).
    apply Rmult_le_pos; [| apply prate_pos; [assumption | split; assumption]]. apply Rmult_le_pos; [left; apply share_pos | apply W].
  - rewrite B by lra. lra.
  - rewrite B by lra. lra.
Qed.
(** the branching ratio is the integral over phase space, and not negative *)
Theorem C200_total (k : kpi) (l : lep3) : kpi_consistent k -> well_posed (kd k) ->
  exists v, kpi_BR_tot k (Lep l) = Ok v /\ v = kpi_correction k l * p_BR_tot (kd k) (Lep l) /\ 0 <= v /\
  v = kpi_correction k l * (share neutral_p (meson (kd k)) * tau_B (kd k) * RInt (fun q2 => RInt (fun th => decay_density_p (kd k) l q2 th) 0 PI) (m_lep (kd k) l ^ 2) (endpoint (kd k))).
Proof.
  intros K W. assert (c0 : 0 <= kpi_correction k l) by (unfold kpi_correction; destruct (kname k); apply pow2_ge_0).
  assert (E : kpi_BR_tot k (Lep l) = Ok (kpi_correction k l * p_BR_tot (kd k) (Lep l))).
  { unfold kpi_BR_tot. cbn [par_m_lep bind]. f_equal. unfold nintegrate. fold (endpoint (kd k)). rewrite ptot_is by exact W. cbn [avg].
    rewrite <- (RI_scal (Fp (kd k) l)) by (apply Fp_int; exact W). apply RI_ext; [apply los; exact W |]. intros x X.
    rewrite (proj1 (C200_spectrum k l x K W)) by (unfold in_range; lra). unfold Fp. rewrite prate_density by (try exact W; unfold in_range; lra). ring. }
  eexists. refine (conj E (conj eq_refl (conj _ _))).
  - apply Rmult_le_pos; [exact c0 |]. destruct (C129_bounds (kd k) (Lep l) (Lep l) 0 0 0 0 0 W (Rle_refl 0) (Rle_refl 0) (Rle_refl 0)) as (_ & a & _ & b & _). lra.
  - f_equal. exact (proj2 (proj2 (C129_bins (kd k) (Lep l) 0 0 0 W))).
Qed.

(** ** C201: the electromagnetic correction of K+ is not used *)
Definition with_EM (k : kpi) (f : string -> R) : kpi := Kpi (kd k) (kname k) (delta_ff k) f.
(** nothing about K+ -> pi0 l nu depends on the corrections 'K+e3 delta_EM', ... (or any other), for any values *)
Theorem C201_refuted (k : kpi) (f : string -> R) (l : lep3) (q2 : R) : kname k = KPlus -> kpi_consistent k ->
  kpi_dBRdq2 (with_EM k f) q2 l = kpi_dBRdq2 k q2 l /\ kpi_BR_tot (with_EM k f) (Lep l) = kpi_BR_tot k (Lep l).
Proof.
  intros N K. unfold kpi_consistent in K. rewrite N in K.
  assert (E : forall x, kpi_dBRdq2 (with_EM k f) x l = kpi_dBRdq2 k x l).
  { intros x. unfold kpi_dBRdq2, with_EM. cbn [kd kname]. rewrite K. reflexivity. }
  split; [apply E |]. unfold kpi_BR_tot. cbn [kd with_EM par_m_lep bind]. f_equal. unfold nintegrate. apply RInt_ext. intros x _. apply E.
Qed.

(** ** C202: observables with a generic lepton l *)
Theorem C202_refuted (k : kpi) (mK mP ms : R) (ff : R -> ffkey -> R) (wc : wckey -> C) :
  kpi_BR_tot k Ll = Err KeyError /\ logC mK mP ms (par_m_lep (kd k) Ll) ff wc = Err KeyError.
Proof. split; reflexivity. Qed.

(** ** C203: ln C, R_T, g1/f1 *)
(** Standard Model (coefficient of the left-handed vector current real and not zero): the ratio of scalar form factors, for any lepton; no tensor coupling *)
Theorem C203_SM (mK mP ms ml cSM : R) (ff : R -> ffkey -> R) : 0 < mP < mK -> 0 < ml -> cSM <> 0 -> 0 < ff (mK ^ 2 - mP ^ 2) Fzero / ff 0 Fzero ->
  let wc := get_wceff_fccc (RtoC cSM) (RtoC 0) (RtoC 0) (RtoC 0) (RtoC 0) (RtoC 0) in
  logC mK mP ms (Ok ml) ff wc = Ok (ln (ff (mK ^ 2 - mP ^ 2) Fzero / ff 0 Fzero)) /\ RT mK mP ff wc = 0.
Proof.
  intros (a & b) m c p wc. assert (Q : 0 < mK ^ 2 - mP ^ 2) by (assert (0 < (mK - mP) * (mK + mP)) by (apply Rmult_lt_0_compat; lra); lra).
  split.
  - unfold logC. cbn [bind]. cbv zeta.
    assert (A : Re (wc Wa + wc Wap)%C = - cSM / 2). { unfold wc, get_wceff_fccc, Re. unfold Cdiv. rewrite <- RtoC_inv by lra. cbn [fst snd Cplus Cmult Copp RtoC]. field. }
    assert (B : Re (wc Wp + wc Wpp)%C = 0). { unfold wc, get_wceff_fccc, Re. unfold Cdiv. rewrite <- RtoC_inv by lra. cbn [fst snd Cplus Cmult Copp RtoC]. field. }
    rewrite A, B. set (z := ml / (mK ^ 2 - mP ^ 2) * (- cSM / 2)).
    assert (Z : z <> 0). { unfold z. apply Rmult_integral_contrapositive_currified; [apply Rgt_not_eq; apply Rdiv_lt_0_compat; lra | intros e; apply c; lra]. }
    destruct (Req_EM_T z 0) as [e | _]; [contradiction |].
    assert (E : ff (mK ^ 2 - mP ^ 2) Fzero / ff 0 Fzero * (0 / (ms + 0) + z) / z = ff (mK ^ 2 - mP ^ 2) Fzero / ff 0 Fzero). { unfold Rdiv at 3. rewrite Rmult_0_l. field. split; [| exact Z]. intros n. rewrite n in p. unfold Rdiv in p. rewrite Rinv_0, Rmult_0_r in p. lra. }
    rewrite E. destruct (Rlt_dec 0 _) as [y | n]; [reflexivity | contradiction].
  - unfold RT, wc, get_wceff_fccc, Re. cbn [fst RtoC]. ring.
Qed.
(** scalar couplings: C = f0 ratio times 1 + (m_K^2 - m_pi^2)/(m_l m_s) (C_S)/(C_V), for real coefficients; C_V is the vector coupling CVL + CVR (with the Standard Model), C_S = CSR + CSL *)
Theorem C203_scalar (mK mP ms ml cSM vl vr sr sl t : R) (ff : R -> ffkey -> R) : 0 < mP < mK -> 0 < ml -> 0 < ms -> cSM + vl + vr <> 0 ->
  let r := ff (mK ^ 2 - mP ^ 2) Fzero / ff 0 Fzero * (1 + (mK ^ 2 - mP ^ 2) / (ml * ms) * ((sr + sl) / (cSM + vl + vr))) in
  0 < r ->
  logC mK mP ms (Ok ml) ff (get_wceff_fccc (RtoC cSM) (RtoC vl) (RtoC vr) (RtoC sr) (RtoC sl) (RtoC t)) = Ok (ln r) /\
  RT mK mP ff (get_wceff_fccc (RtoC cSM) (RtoC vl) (RtoC vr) (RtoC sr) (RtoC sl) (RtoC t)) = - 4 * mK / (mK + mP) * (ff 0 Ftens / ff 0 Fplus) * t.
Proof.
  intros (a & b) m s c r p. set (wc := get_wceff_fccc _ _ _ _ _ _). assert (Q : 0 < mK ^ 2 - mP ^ 2) by (assert (0 < (mK - mP) * (mK + mP)) by (apply Rmult_lt_0_compat; lra); lra).
  split.
  - unfold logC. cbn [bind]. cbv zeta.
    assert (A : Re (wc Wa + wc Wap)%C = - (cSM + vl + vr) / 2). { unfold wc, get_wceff_fccc, Re. unfold Cdiv. rewrite <- RtoC_inv by lra. cbn [fst snd Cplus Cmult Copp RtoC]. field. }
    assert (B : Re (wc Wp + wc Wpp)%C = - (sr + sl) / 2). { unfold wc, get_wceff_fccc, Re. unfold Cdiv. rewrite <- RtoC_inv by lra. cbn [fst snd Cplus Cmult Copp RtoC]. field. }
    rewrite A, B. set (z := ml / (mK ^ 2 - mP ^ 2) * (- (cSM + vl + vr) / 2)).
    assert (Z : z <> 0). { unfold z. apply Rmult_integral_contrapositive_currified; [apply Rgt_not_eq; apply Rdiv_lt_0_compat; lra | intros e; apply c; lra]. }
    destruct (Req_EM_T z 0) as [e | _]; [contradiction |].
    assert (E : ff (mK ^ 2 - mP ^ 2) Fzero / ff 0 Fzero * (- (sr + sl) / 2 / (ms + 0) + z) / z = r).
    { unfold r, z. generalize (ff (mK ^ 2 - mP ^ 2) Fzero / ff 0 Fzero). intros f0. field. repeat split; try exact c; lra. }
    rewrite E. destruct (Rlt_dec 0 _) as [y | n]; [reflexivity | contradiction].
  - unfold RT, wc, get_wceff_fccc, Re. cbn [fst RtoC]. unfold Rdiv. ring.
Qed.
(** left-handed new physics (any complex V_L with a real part) cancels in the ratio *)
Theorem C203_hyperon (F1 G1 : R) (VL : C) : Re VL <> 0 -> F1 <> 0 -> g1_f1 F1 G1 VL (RtoC 0) = G1 / F1.
Proof. intros H N. unfold g1_f1, Re in *. cbn [fst Cplus Cminus Copp RtoC]. unfold Cminus. cbn [fst Cplus Copp RtoC]. field. split; [exact N | intros e; apply H; lra]. Qed.
Theorem C203_right_handed (F1 G1 VL VR : R) : VL + VR <> 0 -> F1 <> 0 -> g1_f1 F1 G1 (RtoC VL) (RtoC VR) = G1 / F1 * ((VL - VR) / (VL + VR)) /\ g1_f1 F1 G1 (RtoC VR) (RtoC VL) = - g1_f1 F1 G1 (RtoC VL) (RtoC VR).
Proof. intros H N. unfold g1_f1, Re. unfold Cminus. cbn [fst Cplus Copp RtoC]. assert (H' : VR + VL <> 0) by (intros e; apply H; lra). split; field; repeat split; assumption. Qed.

(** ** C204: K -> pi pi *)
Definition sumC (l : list C) : C := fold_right Cplus (RtoC 0) l.
Definition sumR (l : list R) : R := fold_right Rplus 0 l.
(** the ten operators of the Standard Model have seven independent matrix elements for isospin 0 and three for isospin 2 *)
Theorem C204_relations (par : string -> R) (i : isospin) :
  let m := MSM par i in
  m 4%nat = - m 1%nat + m 2%nat + m 3%nat /\ m 9%nat = (3 * m 1%nat - m 3%nat) / 2 /\ m 10%nat = m 9%nat + m 4%nat - m 3%nat /\
  (i = I0 -> m 3%nat = par "Kpipi M0 3"%string /\ m 4%nat = par "Kpipi M0 4"%string /\ m 5%nat = par "Kpipi M0 5"%string /\ m 6%nat = par "Kpipi M0 6"%string /\ m 7%nat = par "Kpipi M0 7"%string /\ m 8%nat = par "Kpipi M0 8"%string /\ m 9%nat = par "Kpipi M0 9"%string) /\
  (i = I2 -> m 3%nat = 0 /\ m 4%nat = 0 /\ m 5%nat = 0 /\ m 6%nat = 0 /\ m 7%nat = par "Kpipi M2 7"%string /\ m 8%nat = par "Kpipi M2 8"%string /\ m 9%nat = par "Kpipi M2 9"%string).
Proof.
  destruct i; cbv zeta; unfold MSM, M, mstr; cbn [append]; refine (conj _ (conj _ (conj _ (conj _ _)))); try discriminate; try (intros _; repeat split; reflexivity); field.
Qed.
(** exchange of L and R in a name *)
Definition swap_char (c : ascii) : ascii := if Ascii.eqb c "L" then "R"%char else if Ascii.eqb c "R" then "L"%char else c.
Fixpoint swapLR (s : string) : string := match s with EmptyString => EmptyString | String c s => String (swap_char c) (swapLR s) end.
Definition mirror (n : string) : string := if String.eqb n "C8_sd" then "C8p_sd"%string else if String.eqb n "C8p_sd" then "C8_sd"%string else swapLR n.
Definition the_names : list string :=
  ["CVLL_sduu"; "CVLLt_sduu"; "CVLR_sduu"; "CVLRt_sduu"; "CVLL_sddd"; "CVLR_sddd"; "CSRL_sddd"; "CSRR_sddd"; "CTRR_sddd"; "CSRL_sduu"; "CSRLt_sduu"; "CSRR_sduu"; "CSRRt_sduu"; "CTRR_sduu"; "CTRRt_sduu"; "C8_sd"]%string.
Definition memb (n : string) (l : list string) : bool := existsb (String.eqb n) l.
Lemma memb_in (n : string) (l : list string) : memb n l = true <-> In n l.
Proof. unfold memb. rewrite existsb_exists. split; [intros (x & H & E); apply String.eqb_eq in E; now subst | intros H; exists n; split; [exact H | apply String.eqb_refl]]. Qed.
Fixpoint nodupb (l : list string) : bool := match l with [] => true | n :: l => negb (memb n l) && nodupb l end.
Lemma nodupb_spec (l : list string) : nodupb l = true -> NoDup l.
Proof.
  induction l as [| n l IH]; intros H; [constructor |]. cbn [nodupb] in H. apply andb_prop in H. destruct H as (a & b). constructor; [| now apply IH].
  intros J. apply memb_in in J. rewrite J in a. discriminate.
Qed.
Definition first_names (i : isospin) : list string :=
  ["CVLL_sduu"; "CVLLt_sduu"; "CVLR_sduu"; "CVLRt_sduu"; "CVLL_sddd"; "CVLR_sddd"; "CSRL_sddd"; "CSRR_sddd"; "CTRR_sddd"]%string ++
  match i with I2 => ["CSRL_sduu"; "CSRR_sduu"; "CTRR_sduu"; "CSRLt_sduu"; "CSRRt_sduu"; "CTRRt_sduu"; "C8_sd"]%string
             | I0 => ["CSRL_sduu"; "CSRLt_sduu"; "CSRR_sduu"; "CSRRt_sduu"; "CTRR_sduu"; "CTRRt_sduu"; "C8_sd"]%string end.
Lemma first_is (par : string -> R) (ms : R) (i : isospin) : map fst (MNP_first par ms i) = first_names i.
Proof. destruct i; reflexivity. Qed.
Lemma names_is (par : string -> R) (ms : R) (i : isospin) : map fst (MNP par ms i) = first_names i ++ map fst flips.
Proof. unfold MNP. rewrite map_app, first_is, map_map. reflexivity. Qed.
Lemma lookR_in (n : string) (m : R) (l : list (string * R)) : NoDup (map fst l) -> In (n, m) l -> lookR n l = m.
Proof.
  unfold lookR. induction l as [| (a, b) l IH]; intros D H; [destruct H |]. cbn [find fst]. inversion D; subst. destruct H as [H | H].
  - assert (a = n /\ b = m) by (split; congruence). destruct H0; subst. rewrite String.eqb_refl. reflexivity.
  - destruct (String.eqb n a) eqn:E; [| now apply IH]. apply String.eqb_eq in E. subst a. exfalso. apply H2. apply in_map_iff. exists (n, m). split; [reflexivity | exact H].
Qed.
Lemma lookR_mem (n : string) (l : list (string * R)) : In n (map fst l) -> In (n, lookR n l) l.
Proof.
  unfold lookR. induction l as [| (a, b) l IH]; intros H; [destruct H |]. cbn [find fst]. destruct (String.eqb n a) eqn:E.
  - apply String.eqb_eq in E. subst a. left. reflexivity.
  - right. apply IH. destruct H as [H | H]; [| exact H]. cbn [fst] in H. subst a. rewrite String.eqb_refl in E. discriminate.
Qed.
Lemma flips_ok : forall i, forallb (fun p => memb (snd p) (first_names i) && String.eqb (mirror (fst p)) (snd p) && String.eqb (mirror (snd p)) (fst p)) flips = true.
Proof. intros []; reflexivity. Qed.
(** the matrix elements are those of sixteen operators and their mirror images, each once; parity: QCD conserves it and pi pi (from a pseudoscalar kaon) is odd *)
Theorem C204_parity (par : string -> R) (ms : R) (i : isospin) :
  NoDup (map fst (MNP par ms i)) /\ (forall n, In n (map fst (MNP par ms i)) <-> In n the_names \/ In (mirror n) the_names /\ mirror (mirror n) = n) /\
  (forall n m, In (n, m) (MNP par ms i) -> In (mirror n, - m) (MNP par ms i)).
Proof.
  assert (ND : NoDup (first_names i)) by (apply nodupb_spec; destruct i; reflexivity).
  assert (FL : forall a b, In (a, b) flips -> In b (first_names i) /\ mirror a = b /\ mirror b = a).
  { intros a b H. pose proof (flips_ok i) as F. rewrite forallb_forall in F. specialize (F _ H). cbn [fst snd] in F. apply andb_prop in F. destruct F as (F & c). apply andb_prop in F. destruct F as (f & e).
    apply memb_in in f. apply String.eqb_eq in e, c. split; [exact f | split; assumption]. }
  refine (conj _ (conj _ _)).
  - rewrite names_is. apply nodupb_spec. destruct i; reflexivity.
  - rewrite names_is. intros n. split.
    + intros H. apply in_app_or in H. destruct H as [H | H].
      * left. assert (Q : forallb (fun n => memb n the_names) (first_names i) = true) by (destruct i; reflexivity). rewrite forallb_forall in Q. apply memb_in. now apply Q.
      * right. apply in_map_iff in H. destruct H as ((a, b) & <- & H). destruct (FL a b H) as (f & e & c). cbn [fst]. rewrite e, c. split; [| reflexivity].
        assert (Q : forallb (fun n => memb n the_names) (first_names i) = true) by (destruct i; reflexivity). rewrite forallb_forall in Q. apply memb_in. now apply Q.
    + intros [H | (H & E)].
      * apply in_or_app. left. assert (Q : forallb (fun n => memb n (first_names i)) the_names = true) by (destruct i; reflexivity). rewrite forallb_forall in Q. apply memb_in. now apply Q.
      * apply in_or_app. right. rewrite <- E. assert (Q : forallb (fun n => memb (mirror n) (map fst flips)) the_names = true) by reflexivity. rewrite forallb_forall in Q. apply memb_in. now apply Q.
  - intros n m H. unfold MNP in *. apply in_app_or in H. destruct H as [H | H]; apply in_or_app.
    + right. apply in_map_iff. exists (mirror n, n). cbn [fst snd]. rewrite (lookR_in n m) by (try rewrite first_is; assumption). split; [reflexivity |].
      assert (Q : forallb (fun n => existsb (fun p => (String.eqb (mirror n) (fst p) && String.eqb n (snd p))%bool) flips) (first_names i) = true) by (destruct i; reflexivity).
      rewrite forallb_forall in Q. assert (J : In n (first_names i)) by (rewrite <- (first_is par ms); apply in_map_iff; exists (n, m); split; [reflexivity | exact H]).
      specialize (Q n J). apply existsb_exists in Q. destruct Q as ((a, b) & K & E). cbn [fst snd] in E. apply andb_prop in E. destruct E as (e & f). apply String.eqb_eq in e, f. rewrite e, f at 1. rewrite <- f. rewrite f. rewrite f in *. congruence.
    + left. apply in_map_iff in H. destruct H as ((a, b) & E & H). cbn [fst snd] in E. destruct (FL a b H) as (f & e & c). assert (n = a /\ m = - lookR b (MNP_first par ms i)) by (split; congruence). destruct H0; subst n m. rewrite Ropp_involutive, e. apply lookR_mem. rewrite first_is. exact f.
Qed.
Lemma sumC_nil : sumC [] = RtoC 0. Proof. reflexivity. Qed.
Lemma sumC_cons (a : C) (l : list C) : sumC (a :: l) = (a + sumC l)%C. Proof. reflexivity. Qed.
Lemma fold_sum {A} (f : A -> C) (l : list A) : forall x, fold_left (fun X a => (X + f a)%C) l x = (x + sumC (map f l))%C.
Proof. induction l as [| a l IH]; intros x; cbn [fold_left map]; rewrite ?sumC_nil, ?sumC_cons; [ring | rewrite IH; ring]. Qed.
Lemma sumC_app (l m : list C) : sumC (l ++ m) = (sumC l + sumC m)%C.
Proof. induction l as [| a l IH]; cbn [app]; rewrite ?sumC_nil, ?sumC_cons; [ring | rewrite IH; ring]. Qed.
Lemma sumC_scal (z : C) (l : list C) : (z * sumC l)%C = sumC (map (fun x => z * x)%C l).
Proof. induction l as [| a l IH]; cbn [map]; rewrite ?sumC_nil, ?sumC_cons; [ring | rewrite <- IH; ring]. Qed.
Lemma sumC_plus {A} (f g : A -> C) (l : list A) : sumC (map (fun x => f x + g x)%C l) = (sumC (map f l) + sumC (map g l))%C.
Proof. induction l as [| a l IH]; cbn [map]; rewrite ?sumC_nil, ?sumC_cons; [ring | rewrite IH; ring]. Qed.
Lemma sumC_perm (l m : list C) : Permutation l m -> sumC l = sumC m.
Proof. induction 1; rewrite ?sumC_cons; [reflexivity | now rewrite IHPermutation | ring | congruence]. Qed.
Lemma sumC_ext {A} (f g : A -> C) (l : list A) : (forall x, In x l -> f x = g x) -> sumC (map f l) = sumC (map g l).
Proof. intros H. induction l as [| a l IH]; [reflexivity |]. cbn [map]. rewrite !sumC_cons, IH by (intros; apply H; now right). rewrite (H a) by now left. reflexivity. Qed.
Lemma sumR_cons (a : R) (l : list R) : sumR (a :: l) = a + sumR l. Proof. reflexivity. Qed.
Lemma sumR_nil : sumR [] = 0. Proof. reflexivity. Qed.
Lemma ampNP_is (par : string -> R) (ms : R) (xi_t : C) (GF : R) (wc : string -> C) (i : isospin) :
  ampNP par ms xi_t GF wc i = (- (RtoC (4 * GF / sqrt 2) * xi_t) * sumC (map (fun p => RtoC (snd p) * Cconj (wc (fst p)))%C (MNP par ms i)))%C.
Proof.
  unfold ampNP. cbv zeta. rewrite (fold_sum (fun jm => - (RtoC (4 * GF / sqrt 2) * xi_t) * RtoC (snd jm) * Cconj (wc (fst jm)))%C), Cplus_0_l, sumC_scal, map_map. apply sumC_ext. intros x _. ring.
Qed.
(** the amplitudes of new physics: linear in the conjugated coefficients; every operator and its mirror image contribute with opposite sign, so that only the difference of their coefficients enters (parity-even new physics does not contribute) *)
Theorem C204_amplitude_NP (par : string -> R) (ms : R) (xi_t : C) (GF : R) (wc : string -> C) (i : isospin) :
  ampNP par ms xi_t GF wc i = (- RtoC (4 * GF / sqrt 2) * xi_t * sumC (map (fun n => RtoC (lookR n (MNP par ms i)) * Cconj (wc n - wc (mirror n))) the_names))%C.
Proof.
  rewrite ampNP_is.
  assert (ND : NoDup (first_names i)) by (apply nodupb_spec; destruct i; reflexivity).
  assert (P1 : Permutation (first_names i) the_names).
  { apply NoDup_Permutation; [exact ND | apply nodupb_spec; reflexivity |]. intros n.
    assert (Q : forallb (fun n => memb n the_names) (first_names i) = true) by (destruct i; reflexivity). rewrite forallb_forall in Q.
    assert (Q' : forallb (fun n => memb n (first_names i)) the_names = true) by (destruct i; reflexivity). rewrite forallb_forall in Q'.
    split; intros H; apply memb_in; auto. }
  assert (P2 : Permutation (map snd flips) the_names).
  { apply NoDup_Permutation; [apply nodupb_spec; reflexivity | apply nodupb_spec; reflexivity |]. intros n.
    assert (Q : forallb (fun n => memb n the_names) (map snd flips) = true) by reflexivity. rewrite forallb_forall in Q.
    assert (Q' : forallb (fun n => memb n (map snd flips)) the_names = true) by reflexivity. rewrite forallb_forall in Q'.
    split; intros H; apply memb_in; auto. }
  assert (L : forall n, In n (first_names i) -> lookR n (MNP par ms i) = lookR n (MNP_first par ms i)).
  { intros n H. apply lookR_in; [rewrite names_is; apply nodupb_spec; destruct i; reflexivity |]. unfold MNP. apply in_or_app. left. apply lookR_mem. rewrite first_is. exact H. }
  assert (FL : forall p, In p flips -> In (snd p) (first_names i) /\ mirror (snd p) = fst p).
  { intros p H. pose proof (flips_ok i) as F. rewrite forallb_forall in F. specialize (F _ H). apply andb_prop in F. destruct F as (F & c). apply andb_prop in F. destruct F as (f & e). apply memb_in in f. apply String.eqb_eq in c. now split. }
  set (f := fun n => (RtoC (lookR n (MNP par ms i)) * Cconj (wc n))%C). set (g := fun n => (- (RtoC (lookR n (MNP par ms i)) * Cconj (wc (mirror n))))%C).
  assert (A : sumC (map (fun p => RtoC (snd p) * Cconj (wc (fst p)))%C (MNP_first par ms i)) = sumC (map f the_names)).
  { rewrite <- (sumC_perm (map f (first_names i)) (map f the_names)) by (apply Permutation_map; exact P1). rewrite <- (first_is par ms), map_map. apply sumC_ext. intros (n, m) H. cbn [fst snd]. unfold f.
    rewrite L by (rewrite <- (first_is par ms); apply in_map_iff; exists (n, m); split; [reflexivity | exact H]). rewrite (lookR_in n m) by (try rewrite first_is; assumption). reflexivity. }
  assert (B : sumC (map (fun p => RtoC (snd p) * Cconj (wc (fst p)))%C (map (fun p => (fst p, - lookR (snd p) (MNP_first par ms i))) flips)) = sumC (map g the_names)).
  { rewrite <- (sumC_perm (map g (map snd flips)) (map g the_names)) by (apply Permutation_map; exact P2). rewrite !map_map. apply sumC_ext. intros p H. cbn [fst snd]. unfold g. destruct (FL p H) as (a & b). rewrite b, L by exact a. rewrite RtoC_opp. ring. }
  unfold MNP at 1. rewrite map_app, sumC_app, A, B, <- sumC_plus. rewrite (sumC_ext (fun n => RtoC (lookR n (MNP par ms i)) * Cconj (wc n - wc (mirror n)))%C (fun n => f n + g n)%C); [ring |].
  intros n _. unfold f, g. replace (Cconj (wc n - wc (mirror n)))%C with (Cconj (wc n) - Cconj (wc (mirror n)))%C; [ring |]. apply injective_projections; cbn [fst snd Cplus Cminus Copp Cconj]; unfold Cminus; cbn [fst snd Cplus Copp]; ring.
Qed.
(** isospin: the (u u) + (d d) combinations of operators change isospin by 1/2 only, so that their elements for isospin 2 cancel; the chromomagnetic operators too *)
Theorem C204_isospin (par : string -> R) (ms : R) :
  let m n := lookR n (MNP par ms I2) in
  (forall s, In s ["CVLL"; "CVRR"; "CVLR"; "CVRL"; "CSRL"; "CSLR"; "CSRR"; "CSLL"; "CTRR"; "CTLL"]%string -> m (append s "_sduu") + m (append s "_sddd") = 0) /\
  m "C8_sd"%string = 0 /\ m "C8p_sd"%string = 0 /\ m "CVLLt_sduu"%string + m "CVLL_sddd"%string = 0.
Proof.
  cbv zeta. refine (conj _ (conj _ (conj _ _))).
  - intros s H. cbn [In] in H. repeat (destruct H as [<- | H]; [cbn; unfold M, mstr; cbn [append]; field |]). destruct H.
  - reflexivity.
  - cbn. ring.
  - cbn. unfold M, mstr; cbn [append]. field.
Qed.
(** vector operators in terms of those of the Standard Model.  With (V-A) = 2 gamma P_L: Q1 and Q2 are 4 times the (u u) operators; Q3 to Q6 are 4 times sums over the flavours u, d, s, Q7 to Q10 4 times sums weighted with 3/2 of the charge.
    (s s) operators do not contribute to pi pi.  The scalar (d d) operator of opposite chiralities is 1/2 of the colour-crossed vector operator *)
Theorem C204_operators (par : string -> R) (ms : R) (i : isospin) :
  let m n := lookR n (MNP par ms i) in let q := MSM par i in
  4 * m "CVLL_sduu"%string = q 1%nat /\ 4 * m "CVLLt_sduu"%string = q 2%nat /\
  (let x := m "CVLR_sddd"%string in 4 * (m "CVLR_sduu"%string + x) = q 5%nat /\ 4 * (3 / 2) * (2 / 3 * m "CVLR_sduu"%string - 1 / 3 * x) = q 7%nat) /\
  (let x := m "CVLL_sddd"%string in exists u, 4 * (u + x) = q 3%nat /\ 4 * (3 / 2) * (2 / 3 * u - 1 / 3 * x) = q 9%nat) /\
  (let x := 2 * m "CSRL_sddd"%string in 4 * (m "CVLRt_sduu"%string + x) = q 6%nat /\ 4 * (3 / 2) * (2 / 3 * m "CVLRt_sduu"%string - 1 / 3 * x) = q 8%nat) /\
  m "CSRR_sddd"%string = M par i "SLL2_d" /\ m "CTRR_sddd"%string = - 8 * M par i "SLL1_d" - 4 * M par i "SLL2_d".
Proof.
  cbv zeta. refine (conj _ (conj _ (conj _ (conj _ (conj _ (conj _ _)))))).
  - destruct i; cbn; field.
  - destruct i; cbn; field.
  - destruct i; cbn; split; field.
  - exists ((MSM par i 3 + 2 * MSM par i 9) / 12). destruct i; cbn; split; field.
  - destruct i; cbn; split; field.
  - destruct i; reflexivity.
  - destruct i; reflexivity.
Qed.
(** isospin 0: the elements of the (u u) scalar and tensor operators and of the chromomagnetic operator are those of the parameters *)
Theorem C204_parameters (par : string -> R) (ms : R) :
  let m n := lookR n (MNP par ms I0) in
  m "CSRL_sduu"%string = par "Kpipi M0 SLR2_u"%string /\ m "CSRLt_sduu"%string = par "Kpipi M0 SLR1_u"%string /\ m "CSRR_sduu"%string = par "Kpipi M0 SLL2_u"%string /\ m "CSRRt_sduu"%string = par "Kpipi M0 SLL1_u"%string /\
  m "CTRR_sduu"%string = - par "Kpipi M0 SLL4_u"%string /\ m "CTRRt_sduu"%string = - par "Kpipi M0 SLL3_u"%string /\ m "C8_sd"%string = - (ms * par "Kpipi M0 g-"%string / 2).
Proof. cbv zeta. refine (conj eq_refl (conj eq_refl (conj eq_refl (conj eq_refl (conj eq_refl (conj eq_refl _)))))). cbn. unfold M, mstr. cbn [append]. field. Qed.
(** isospin 2: colour-crossed scalar and tensor operators by the identities of Fierz for equal chiralities (matrix [[-1/2, -1/8], [-6, 1/2]], an involution) and isospin *)
Theorem C204_fierz (par : string -> R) (ms : R) :
  let m n := lookR n (MNP par ms I2) in
  let crossed_S := - m "CSRRt_sduu"%string in let crossed_T := - m "CTRRt_sduu"%string in
  crossed_S = - 1 / 2 * m "CSRR_sddd"%string - 1 / 8 * m "CTRR_sddd"%string /\ crossed_T = - 6 * m "CSRR_sddd"%string + 1 / 2 * m "CTRR_sddd"%string /\
  m "CSRR_sddd"%string = - 1 / 2 * crossed_S - 1 / 8 * crossed_T /\ m "CTRR_sddd"%string = - 6 * crossed_S + 1 / 2 * crossed_T.
Proof. cbv zeta. cbn. unfold M, mstr. cbn [append]. refine (conj _ (conj _ (conj _ _))); field. Qed.
(** the new-physics part of eps'/eps: zero if all products xi_t conj(C) are real; linear over the reals *)
Theorem C204_epsprime_NP (par : string -> R) (ms : R) (xi_t : C) (GF : R) :
  (forall wc, let Sm i := sumR (map (fun p => snd p * snd (xi_t * Cconj (wc (fst p)))%C) (MNP par ms i)) in
    epsprime_NP par ms xi_t GF wc = par "omega+"%string * (4 * GF) / (par "epsp a"%string * (sqrt 2 * sqrt 2) * par "eps_K"%string) * (Sm I0 / par "ReA0(K->pipi)"%string - Sm I2 / par "ReA2(K->pipi)"%string)) /\
  (forall wc, (forall n, snd (xi_t * Cconj (wc n))%C = 0) -> epsprime_NP par ms xi_t GF wc = 0) /\
  (forall (wc wc' : string -> C) (a b : R), epsprime_NP par ms xi_t GF (fun n => RtoC a * wc n + RtoC b * wc' n)%C = a * epsprime_NP par ms xi_t GF wc + b * epsprime_NP par ms xi_t GF wc').
Proof.
  assert (Im_is : forall wc i, Im (ampNP par ms xi_t GF wc i) = - (4 * GF / sqrt 2) * sumR (map (fun p => snd p * snd (xi_t * Cconj (wc (fst p)))%C) (MNP par ms i))).
  { intros wc i. rewrite ampNP_is. generalize (MNP par ms i). intros l. unfold Im.
    assert (E : forall l, snd (xi_t * sumC (map (fun p : string * R => RtoC (snd p) * Cconj (wc (fst p)))%C l))%C = sumR (map (fun p => snd p * snd (xi_t * Cconj (wc (fst p)))%C) l)).
    { clear l. intros l. induction l as [| p l IH]; cbn [map]; rewrite ?sumC_nil, ?sumR_nil, ?sumC_cons, ?sumR_cons; [cbn [snd Cmult RtoC fst]; ring |]. rewrite <- IH. cbn [fst snd Cplus Cmult RtoC Cconj]. ring. }
    rewrite <- E. cbn [fst snd Copp Cmult RtoC]. ring. }
  refine (conj _ (conj _ _)).
  - intros wc. cbv zeta. unfold epsprime_NP. cbv zeta. rewrite !Im_is. unfold Rdiv. rewrite !Rinv_mult. ring.
  - intros wc H. unfold epsprime_NP. cbv zeta. rewrite !Im_is.
    assert (Z : forall l : list (string * R), sumR (map (fun p => snd p * snd (xi_t * Cconj (wc (fst p)))%C) l) = 0).
    { induction l as [| p l IH]; cbn [map]; rewrite ?sumR_nil, ?sumR_cons; [reflexivity |]. rewrite IH, H. ring. }
    rewrite !Z. unfold Rdiv. ring.
  - intros wc wc' a b. unfold epsprime_NP. cbv zeta. rewrite !Im_is.
    assert (Z : forall l : list (string * R), sumR (map (fun p => snd p * snd (xi_t * Cconj (RtoC a * wc (fst p) + RtoC b * wc' (fst p)))%C) l) =
      a * sumR (map (fun p => snd p * snd (xi_t * Cconj (wc (fst p)))%C) l) + b * sumR (map (fun p => snd p * snd (xi_t * Cconj (wc' (fst p)))%C) l)).
    { induction l as [| p l IH]; cbn [map]; rewrite ?sumR_nil, ?sumR_cons; [ring |]. rewrite IH. cbn [fst snd Cplus Cmult RtoC Cconj]. ring. }
    rewrite !Z. unfold Rdiv. ring.
Qed.
(** the Standard Model: with V_us* V_ud real and the usual phases eps'/eps is proportional to Im xi_t, independent of the coefficients z; only the operators 1, 2 and 7 to 10 contribute with isospin 2 *)
Theorem C204_epsprime_SM (par : string -> R) (xi_u xi_t : C) (GF : R) (y z : nat -> R) : xi_u <> RtoC 0 -> snd xi_u = 0 ->
  epsprime_SM par xi_u xi_t GF y z = snd xi_t * (par "omega+"%string * GF / (sqrt 2 * sqrt 2 * par "eps_K"%string)) *
   ((1 - par "Omegahat_eff"%string) / par "ReA0(K->pipi)"%string * sumR (map (fun j => MSM par I0 j * y j) [1; 2; 3; 4; 5; 6; 7; 8; 9; 10]%nat) -
    1 / (par "epsp a"%string * par "ReA2(K->pipi)"%string) * sumR (map (fun j => MSM par I2 j * y j) [1; 2; 7; 8; 9; 10]%nat)).
Proof.
  intros N R0.
  assert (T : forall i j, snd (RtoC (GF / sqrt 2) * xi_u * RtoC (MSM par i j) * (RtoC (z j) + - xi_t / xi_u * RtoC (y j)))%C = - (GF / sqrt 2) * snd xi_t * (MSM par i j * y j)).
  { intros i j. replace (RtoC (GF / sqrt 2) * xi_u * RtoC (MSM par i j) * (RtoC (z j) + - xi_t / xi_u * RtoC (y j)))%C with (RtoC (GF / sqrt 2) * RtoC (MSM par i j) * (RtoC (z j) * xi_u - RtoC (y j) * xi_t))%C by (field; exact N).
    unfold Cminus. cbn [fst snd Cplus Cmult Copp RtoC]. rewrite R0. ring. }
  assert (E : forall i, Im (ampSM par xi_u xi_t GF y z true true false i) = - (GF / sqrt 2) * snd xi_t * sumR (map (fun j => MSM par i j * y j) [1; 2; 3; 4; 9; 10; 5; 6; 7; 8]%nat)).
  { intros i. unfold ampSM. cbv zeta. cbn [andb app].
    rewrite (fold_sum (fun j => RtoC (GF / sqrt 2) * xi_u * RtoC (MSM par i j) * (RtoC (z j) + - xi_t / xi_u * RtoC (y j)))%C). unfold Im. generalize [1; 2; 3; 4; 9; 10; 5; 6; 7; 8]%nat. intros l. cbn [snd Cplus RtoC]. rewrite Rplus_0_l.
    induction l as [| j l IH]; cbn [map]; rewrite ?sumC_nil, ?sumC_cons, ?sumR_nil, ?sumR_cons; cbn [snd RtoC]; [ring |]. cbn [snd Cplus]. rewrite IH, T. ring. }
  assert (Q : forall k, MSM par I2 k = 0 \/ ~ In k [3; 4; 5; 6]%nat). { intros k. destruct (in_dec PeanoNat.Nat.eq_dec k [3; 4; 5; 6]%nat) as [i | i]; [left | right; exact i]. cbn [In] in i. repeat (destruct i as [<- | i]; [reflexivity |]). destruct i. }
  unfold epsprime_SM. cbv zeta. rewrite !E. cbn [map sumR fold_right].
  replace (MSM par I2 3) with 0 by reflexivity. replace (MSM par I2 4) with 0 by reflexivity. replace (MSM par I2 5) with 0 by reflexivity. replace (MSM par I2 6) with 0 by reflexivity.
  unfold Rdiv. rewrite !Rinv_mult. ring.
Qed.

(** ** C205: Fierz transformation and isospin for the colour-crossed scalar operators.  Identity of Fierz: a scalar operator (s P d)(d P' d) with opposite chiralities is a number f times the colour-crossed vector operator, and the
    colour-crossed scalar operator is f times the vector operator.  With isospin 2 (elements of (u u) and (d d) operators are opposite) the elements satisfy the two equations below.  The code uses f = 1/2 for the first and f = -1/2 for the second *)
Definition fierz_consistent (m : string -> R) : Prop :=
  exists f, m "CSRL_sddd"%string = f * - m "CVLRt_sduu"%string /\ - m "CSRLt_sduu"%string = f * m "CVLR_sddd"%string.
Theorem C205_refuted (par : string -> R) (ms : R) : par "Kpipi M2 7"%string <> 0 -> par "Kpipi M2 8"%string <> 0 -> ~ fierz_consistent (fun n => lookR n (MNP par ms I2)).
Proof.
  intros A B (f & E & F). cbn in E, F. unfold M, mstr in E, F. cbn [append] in E, F.
  assert (f = 1 / 2) by (apply (Rmult_eq_reg_r (par "Kpipi M2 8"%string)); [lra | exact B]). assert (f = - 1 / 2) by (apply (Rmult_eq_reg_r (par "Kpipi M2 7"%string)); [subst f; lra | exact A]). lra.
Qed.

(** ** Concrete cases *)
Definition ex_kpar : kpar := Kpar (fun l => match l with Le => 5 / 10000 | Lmu => 106 / 1000 | Ltau => 1777 / 1000 end) (498 / 1000) (fun _ => 498 / 1000) (fun K => match K with KL => 100 | KS => 1 end) (155 / 1000) (1 / 100000) (1 / 128) (231 / 1000) (1 / 10) (- (3 / 10000), 1 / 10000) (- (22 / 100), - (1 / 10000)).
Example C198_case : open_ll ex_kpar Le Lmu /\ open_ll ex_kpar Lmu Lmu /\ kp_xt ex_kpar <> RtoC 0 /\ kp_m ex_kpar KL <> 0 /\ kp_m ex_kpar KS <> 0 /\ kp_s2w ex_kpar <> 0.
Proof. unfold open_ll, ex_kpar. cbn. repeat split; try lra. intros e. apply (f_equal fst) in e. cbn in e. lra. Qed.
Definition ex_kpi (K : kaon3) : kpi :=
  Kpi (Lnu (fun _ => 1) 5 2 1 4 1 1 (RtoC 1) 1 zeros zeros zeros zeros zeros (fun _ k => match k with Fplus => 1 | Fzero => 1 | _ => 0 end) (match K with KPlus => "pi0" | _ => "pi+" end)) K (1 / 10) (fun n => if String.eqb n "K0mu3 delta_EM" then 1 / 50 else 1 / 100).
Example C200_case (K : kaon3) : kpi_consistent (ex_kpi K) /\ well_posed (kd (ex_kpi K)) /\ in_range (kd (ex_kpi K)) Lmu 4 /\ kpi_correction (ex_kpi KLong) Lmu = (51 / 50) ^ 2 /\ kpi_correction (ex_kpi KPlus) Lmu = (11 / 10) ^ 2.
Proof.
  refine (conj _ (conj _ (conj _ (conj _ _)))).
  - destruct K; reflexivity.
  - unfold well_posed, ex_kpi. cbn [kd m_lep m_B m_M tau_B form]. refine (conj _ (conj _ (conj _ (conj _ _)))); try lra; [intros; lra |]. intros. apply continuous_const.
  - unfold in_range, endpoint, ex_kpi. cbn [kd m_lep m_B m_M]. lra.
  - unfold kpi_correction, ex_kpi. cbn. field.
  - unfold kpi_correction, ex_kpi. cbn. field.
Qed.
Example C201_case : kname (ex_kpi KPlus) = KPlus /\ kpi_consistent (ex_kpi KPlus).
Proof. split; reflexivity. Qed.
Example C203_case : let ff (q2 : R) (k : ffkey) := match k with Fzero => 1 + q2 | _ => 1 end in
  0 < ff ((1 / 2) ^ 2 - (1 / 8) ^ 2) Fzero / ff 0 Fzero /\ 0 < ff ((1 / 2) ^ 2 - (1 / 8) ^ 2) Fzero / ff 0 Fzero * (1 + ((1 / 2) ^ 2 - (1 / 8) ^ 2) / (1 / 10 * (1 / 10)) * ((1 / 1000 + 0) / (1 + 1 / 10 + 0))).
Proof. cbv zeta. split; field_simplify; lra. Qed.
Example C204_case : ((22 / 100, 0) : C) <> RtoC 0 /\ snd ((22 / 100, 0) : C) = 0 /\ (forall n : string, snd (RtoC 3 * Cconj ((fun _ => RtoC 2) n))%C = 0) /\ epsprime_NP (fun s => if String.eqb s "Kpipi M2 8" then 1 else if String.eqb s "Kpipi M0 8" then 3 else 1) 1 (0, 1) 1 (fun n => if String.eqb n "CVLRt_sduu" then RtoC 1 else RtoC 0) <> 0.
Proof.
  refine (conj _ (conj eq_refl (conj _ _))); [intros e; apply (f_equal fst) in e; cbn in e; lra | intros _; cbn; ring |].
  rewrite (proj1 (C204_epsprime_NP _ _ _ _)). cbv zeta. cbn. rewrite sqrt_sqrt by lra. unfold M, mstr; cbn. apply Rgt_not_eq. match goal with |- ?x > 0 => replace x with (5 / 6) by field end. lra.
Qed.
Example C205_case : (fun _ : string => 1) "Kpipi M2 7"%string <> 0 /\ (fun _ : string => 1) "Kpipi M2 8"%string <> 0.
Proof. split; lra. Qed.

Print Assumptions C198_nonnegative.
Print Assumptions C198_differences.
Print Assumptions C198_SM.
Print Assumptions C198_sum_symmetric.
Print Assumptions C199_refuted.
Print Assumptions C200_spectrum.
Print Assumptions C200_total.
Print Assumptions C201_refuted.
Print Assumptions C202_refuted.
Print Assumptions C203_SM.
Print Assumptions C203_scalar.
Print Assumptions C203_hyperon.
Print Assumptions C203_right_handed.
Print Assumptions C204_relations.
Print Assumptions C204_parity.
Print Assumptions C204_amplitude_NP.
Print Assumptions C204_isospin.
Print Assumptions C204_epsprime_NP.
Print Assumptions C204_epsprime_SM.
Print Assumptions C205_refuted.
Print Assumptions C204_operators.
Print Assumptions C204_parameters.
Print Assumptions C204_fierz.

(** C204: the observable is the sum of both parts; without coefficients of new physics it is that of the Standard Model *)
Theorem C204_sum (par : string -> R) (ms : R) (xi_u xi_t : C) (GF : R) (y z : nat -> R) (wc : string -> C) :
  epsprime par ms xi_u xi_t GF y z wc = epsprime_SM par xi_u xi_t GF y z + epsprime_NP par ms xi_t GF wc /\
  epsprime par ms xi_u xi_t GF y z (fun _ => RtoC 0) = epsprime_SM par xi_u xi_t GF y z.
Proof.
  split; [reflexivity|]. unfold epsprime. rewrite (proj1 (proj2 (C204_epsprime_NP par ms xi_t GF))); [ring|]. intros n. cbn [snd Cmult Cconj RtoC fst]. ring.
Qed.
Print Assumptions C204_sum.
