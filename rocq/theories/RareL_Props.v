(** * Theorems: B decays to leptons of different flavour (C182, C183) *)
From Coq Require Import Reals Lra Psatz.
From Coquelicot Require Import Coquelicot.
From Verif Require Import Base Basics_Model Basics_Proofs Angular_Model Decays_Model Decays_Proofs Rare_Model Rare_Spec Rare_Proofs RareL_Spec RareL_Proofs.
Local Open Scope R_scope.

Lemma share_pi0 (m : string) (x : R) : (if (m =? "pi0")%string then x / 2 else x) = share_of "pi0" m * x.
Proof. unfold share_of. destruct (string_dec m "pi0") as [-> | n]; [rewrite String.eqb_refl; field |]. apply String.eqb_neq in n. rewrite n. ring. Qed.
Lemma thr_pos (d : lfvdecay) (l1 l2 : lep3) : lfv_ok d -> 0 < thr d l1 l2.
Proof. intros (_ & _ & _ & ml & _). unfold thr. apply pow_lt. pose proof (ml l1). pose proof (ml l2). lra. Qed.
Lemma edge (d : lfvdecay) (l1 l2 : lep3) : lfv_norm d l1 l2 (thr d l1 l2) = 0.
Proof. unfold lfv_norm, lepton_phase, thr. rewrite Rminus_eq_0, Rmult_0_l, sqrt_0. unfold Rdiv. ring. Qed.

(** ** C182 *)
(** the rates: a pseudoscalar meson sees the sums, a vector meson sums and differences of left- and right-handed quark currents *)
Theorem C182_rates (d : lfvdecay) (l1 l2 : lep3) (q2 : R) : lfv_ok d -> thr d l1 l2 <= q2 <= top d ->
  bpll_lfv_dbrdq2 d q2 l1 l2 = share_of "pi0" (f_meson d) * (f_tau d * lfv_P d l1 l2 q2) /\ bvlilj_obs d q2 l1 l2 = lfv_V d l1 l2 q2.
Proof.
  intros ok (L & U). pose proof (thr_pos d l1 l2 ok) as T. assert (Q : 0 < q2) by lra. split.
  - unfold bpll_lfv_dbrdq2. cbv zeta. rewrite share_pi0. f_equal. f_equal. unfold bpll_lfv_obs. fold (thr d l1 l2). fold (top d).
    destruct (Rle_dec q2 (thr d l1 l2)) as [l | l].
    + assert (E : q2 = thr d l1 l2) by lra. rewrite E. unfold lfv_P. cbv zeta. rewrite edge. ring.
    + destruct (Rlt_dec (top d) q2) as [l' | _]; [lra |]. cbv zeta. apply rate_P_is; trivial; lra.
  - unfold bvlilj_obs. fold (thr d l1 l2). fold (top d). destruct (Rlt_dec q2 (thr d l1 l2)) as [l | _]; [lra |]. destruct (Rlt_dec (top d) q2) as [l' | _]; [lra |].
    cbv zeta. unfold bvll_lfv_prefactor. fold (thr d l1 l2). destruct (Rle_dec q2 (thr d l1 l2)) as [l | l]; [| apply rate_V_is; trivial; lra].
    assert (E : q2 = thr d l1 l2) by lra. rewrite E. unfold lfv_V. cbv zeta. rewrite edge, Rmult_0_l.
    destruct ok as (B & M & b & ml & _). pose proof (ml l1) as a1. pose proof (ml l2) as a2.
    rewrite dG_massive; try lra; try (unfold thr; lra).
    + unfold thr. rewrite Rminus_eq_0, Rmult_0_l, sqrt_0. unfold Rdiv. ring.
    + intros [| |]; unfold helicity_amps_v; cbv zeta; cbn [aT]; ring.
    + intros [| |]; unfold helicity_amps_v; cbv zeta; cbn [aTt]; ring.
Qed.
(** nothing outside of the phase space *)
Theorem C182_outside (d : lfvdecay) (l1 l2 : lep3) (q2 : R) : q2 < thr d l1 l2 \/ top d < q2 -> bpll_lfv_dbrdq2 d q2 l1 l2 = 0 /\ bvlilj_obs d q2 l1 l2 = 0.
Proof.
  intros O. split.
  - unfold bpll_lfv_dbrdq2, bpll_lfv_obs. cbv zeta. fold (thr d l1 l2). fold (top d). rewrite share_pi0.
    destruct (Rle_dec q2 (thr d l1 l2)); [ring |]. destruct (Rlt_dec (top d) q2); [ring |]. destruct O; lra.
  - unfold bvlilj_obs. fold (thr d l1 l2). fold (top d). destruct (Rlt_dec q2 (thr d l1 l2)); [ring |]. destruct (Rlt_dec (top d) q2); [ring |]. destruct O; lra.
Qed.
Lemma lept_ge (d : lfvdecay) (l1 l2 : lep3) (q2 : R) : lfv_ok d -> thr d l1 l2 <= q2 -> 0 <= lept_V d l1 l2 q2 /\ 0 <= lept_A d l1 l2 q2 /\ 0 <= lept_S d l1 l2 q2 /\ 0 <= lept_P d l1 l2 q2.
Proof.
  intros ok L. pose proof (thr_pos d l1 l2 ok) as T. destruct ok as (_ & _ & _ & ml & _). pose proof (ml l1) as a1. pose proof (ml l2) as a2.
  unfold thr in *. set (x := f_ml d l1) in *. set (y := f_ml d l2) in *. assert (D : (x - y) ^ 2 <= (x + y) ^ 2) by nra.
  pose proof (pow2_ge_0 (x - y)). assert (i : 0 <= 2 / (3 * q2)) by (apply Rmult_le_pos; [lra | apply Rlt_le, Rinv_0_lt_compat; lra]).
  unfold lept_V, lept_A, lept_S, lept_P. fold x. fold y. refine (conj _ (conj _ (conj _ _))); try lra; (apply Rmult_le_pos; [apply Rmult_le_pos |]; try exact i; lra).
Qed.
Lemma lnorm_ge (d : lfvdecay) (l1 l2 : lep3) (q2 : R) : lfv_ok d -> 0 < q2 -> 0 <= lfv_norm d l1 l2 q2.
Proof.
  intros (B & _) Q. pose proof PI_RGT_0. unfold lfv_norm, Rdiv at 1. apply Rmult_le_pos.
  - apply Rmult_le_pos; [apply Rmult_le_pos; [apply Rmult_le_pos |] |]; try apply pow2_ge_0; apply sqrt_pos.
  - apply Rlt_le, Rinv_0_lt_compat. apply Rmult_lt_0_compat; [apply Rmult_lt_0_compat; [apply Rmult_lt_0_compat; [lra |] |] |]; try exact Q; now apply pow_lt.
Qed.
Lemma rates_ge (d : lfvdecay) (l1 l2 : lep3) (q2 : R) : lfv_ok d -> thr d l1 l2 <= q2 <= top d -> 0 <= lfv_P d l1 l2 q2 /\ 0 <= lfv_V d l1 l2 q2.
Proof.
  intros ok (L & U). pose proof (thr_pos d l1 l2 ok) as T. assert (Q : 0 < q2) by lra. destruct (lept_ge d l1 l2 q2 ok L) as (lv & la & ls & lp). pose proof (lnorm_ge d l1 l2 q2 ok Q) as n.
  destruct ok as (B & M & _). destruct (lambda_in (f_mB d) (f_mM d) q2 B M U) as (_ & m).
  assert (i : 0 <= / (4 * q2)) by (apply Rlt_le, Rinv_0_lt_compat; lra).
  assert (j : 0 <= / (2 * (f_mB d + f_mM d) ^ 2)). { apply Rlt_le, Rinv_0_lt_compat. assert (0 < (f_mB d + f_mM d) ^ 2) by (apply pow_lt; lra). lra. }
  assert (k : 0 <= / q2) by (apply Rlt_le, Rinv_0_lt_compat; lra).
  assert (S : forall x, 0 <= x ^ 2) by (intros; apply pow2_ge_0).
  unfold lfv_P, lfv_V. cbv zeta.
  assert (h1 : 0 <= momentum (f_mB d) (f_mM d) q2 / (4 * q2) * f_ff d q2 Fplus ^ 2) by (apply Rmult_le_pos; [apply Rmult_le_pos; assumption | apply S]).
  assert (h2 : 0 <= ((f_mB d ^ 2 - f_mM d ^ 2) / 2) ^ 2 * f_ff d q2 Fzero ^ 2) by (apply Rmult_le_pos; apply S).
  assert (h3 : 0 <= momentum (f_mB d) (f_mM d) q2 / (2 * (f_mB d + f_mM d) ^ 2) * f_ff d q2 FV ^ 2) by (apply Rmult_le_pos; [apply Rmult_le_pos; assumption | apply S]).
  assert (h4 : 0 <= (f_mB d + f_mM d) ^ 2 / 2 * f_ff d q2 FA1 ^ 2 + 16 * f_mB d ^ 2 * f_mM d ^ 2 / q2 * f_ff d q2 FA12 ^ 2).
  { apply Rplus_le_le_0_compat; (apply Rmult_le_pos; [| apply S]); apply Rmult_le_pos; try assumption; try lra; [apply S |]. apply Rmult_le_pos; [apply Rmult_le_pos; [lra | apply S] | apply S]. }
  assert (h5 : 0 <= momentum (f_mB d) (f_mM d) q2 / 4 * f_ff d q2 FA0 ^ 2) by (apply Rmult_le_pos; [lra | apply S]).
  set (a := momentum (f_mB d) (f_mM d) q2 / (4 * q2) * f_ff d q2 Fplus ^ 2) in *. set (b := ((f_mB d ^ 2 - f_mM d ^ 2) / 2) ^ 2 * f_ff d q2 Fzero ^ 2) in *.
  set (c := momentum (f_mB d) (f_mM d) q2 / (2 * (f_mB d + f_mM d) ^ 2) * f_ff d q2 FV ^ 2) in *. set (e := (f_mB d + f_mM d) ^ 2 / 2 * f_ff d q2 FA1 ^ 2 + 16 * f_mB d ^ 2 * f_mM d ^ 2 / q2 * f_ff d q2 FA12 ^ 2) in *.
  set (g := momentum (f_mB d) (f_mM d) q2 / 4 * f_ff d q2 FA0 ^ 2) in *. clearbody a b c e g.
  assert (M3 : forall x y z, 0 <= x -> 0 <= y -> 0 <= x * y * z ^ 2) by (intros; apply Rmult_le_pos; [apply Rmult_le_pos; assumption | apply S]).
  assert (M2 : forall x y u v, 0 <= x -> 0 <= y -> 0 <= x * u ^ 2 + y * v ^ 2) by (intros; apply Rplus_le_le_0_compat; (apply Rmult_le_pos; [assumption | apply S])).
  split; (apply Rmult_le_pos; [exact n |]); apply Rplus_le_le_0_compat; [apply Rplus_le_le_0_compat; [apply Rplus_le_le_0_compat |] | | apply Rplus_le_le_0_compat; [apply Rplus_le_le_0_compat |] |].
  - now apply M3.
  - now apply M3.
  - now apply M3.
  - now apply M3.
  - apply Rmult_le_pos; [exact lv | now apply M2].
  - apply Rmult_le_pos; [exact la | now apply M2].
  - now apply M3.
  - now apply M3.
Qed.
Lemma cont_id2 : forall (x : R), continuous (fun t : R => t) x.
Proof. intros. apply continuous_id. Qed.
Section Cont.
  Variables (d : lfvdecay) (l1 l2 : lep3) (x : R).
  Hypotheses (ok : lfv_ok d) (c : lfv_cont d) (X : 0 < x <= top d).
  Let M : forall f g : R -> R, continuous f x -> continuous g x -> continuous (fun t => f t * g t) x.
  Proof. intros f g. apply (continuous_mult (K := R_AbsRing)). Qed.
  Let A : forall f g : R -> R, continuous f x -> continuous g x -> continuous (fun t => f t + g t) x.
  Proof. intros f g. apply (continuous_plus (V := R_NormedModule)). Qed.
  Let K (a : R) : continuous (fun _ : R => a) x.
  Proof. apply continuous_const. Qed.
  Lemma sq_cont (f : R -> R) : continuous f x -> continuous (fun t => f t ^ 2) x.
  Proof. clear. intros c. apply (continuous_comp f (fun y => y ^ 2) x); [exact c |]. apply (ex_derive_continuous (V := R_NormedModule)). auto_derive. exact I. Qed.
  Lemma mod_cont (z w : C) (k : R) : continuous (fun q => Cmod (z + RtoC (k / q) * w)%C ^ 2) x.
  Proof.
    apply (continuous_ext (fun q => (fst z + k / q * fst w) ^ 2 + (snd z + k / q * snd w) ^ 2)).
    - intros q. match goal with |- ?a = ?b => change (@eq R a b) end. rewrite cmod_sq. destruct z, w. cbn [fst snd Cplus Cmult RtoC]. ring.
    - apply (ex_derive_continuous (V := R_NormedModule)). auto_derive. repeat split; lra.
  Qed.
  Lemma norm_cont : continuous (lfv_norm d l1 l2) x.
  Proof.
    unfold lfv_norm, Rdiv at 1. apply M.
    - apply M; [apply M; [apply K |] |]; (apply continuous_comp; [| apply continuous_sqrt]); unfold momentum, lepton_phase; apply (ex_derive_continuous (V := R_NormedModule)); auto_derive; exact I.
    - pose proof PI_RGT_0. set (k := 256 * PI ^ 3 * f_mB d ^ 3). assert (k0 : 0 < k).
      { destruct ok as (B & _). unfold k. apply Rmult_lt_0_compat; [apply Rmult_lt_0_compat; [lra |] |]; now apply pow_lt. }
      clearbody k. apply (ex_derive_continuous (V := R_NormedModule)). auto_derive. apply Rgt_not_eq. apply Rmult_lt_0_compat; lra.
  Qed.
  Lemma P_cont : continuous (lfv_P d l1 l2) x.
  Proof.
    unfold lfv_P. cbv zeta. apply M; [apply norm_cont |].
    assert (sq : forall k, continuous (fun q => f_ff d q k ^ 2) x) by (intros; apply sq_cont, c, X).
    assert (D : forall f : R -> R, ex_derive f x -> continuous f x) by (intros; now apply (ex_derive_continuous (V := R_NormedModule))).
    apply A; [apply A; [apply A |] |].
    - apply M; [apply M; [| apply M; [| apply sq]] | apply K]; apply D; unfold lept_V, momentum; auto_derive; repeat split; lra.
    - apply M; [apply M; [| apply M; [| apply sq]] | apply K]; apply D; unfold lept_A, momentum; auto_derive; repeat split; lra.
    - apply M; [apply M; [| apply M; [apply K | apply sq]] | apply mod_cont]; apply D; unfold lept_S, momentum; auto_derive; repeat split; lra.
    - apply M; [apply M; [| apply M; [apply K | apply sq]] | apply mod_cont]; apply D; unfold lept_P, momentum; auto_derive; repeat split; lra.
  Qed.
  Lemma V_cont : continuous (lfv_V d l1 l2) x.
  Proof.
    unfold lfv_V. cbv zeta. apply M; [apply norm_cont |].
    assert (sq : forall k, continuous (fun q => f_ff d q k ^ 2) x) by (intros; apply sq_cont, c, X).
    assert (D : forall f : R -> R, ex_derive f x -> continuous f x) by (intros; now apply (ex_derive_continuous (V := R_NormedModule))).
    assert (m0 : (f_mB d + f_mM d) ^ 2 <> 0). { destruct ok as (B & Mm & _). apply Rgt_not_eq, pow_lt. lra. }
    assert (perp : continuous (fun q => momentum (f_mB d) (f_mM d) q / (2 * (f_mB d + f_mM d) ^ 2) * f_ff d q FV ^ 2) x).
    { apply M; [| apply sq]. apply D. unfold momentum. set (z := (f_mB d + f_mM d) ^ 2) in *. auto_derive. exact I. }
    assert (rest : continuous (fun q => (f_mB d + f_mM d) ^ 2 / 2 * f_ff d q FA1 ^ 2 + 16 * f_mB d ^ 2 * f_mM d ^ 2 / q * f_ff d q FA12 ^ 2) x).
    { apply A; (apply M; [| exact (sq _)]); [exact (K _) |]. apply D. auto_derive. lra. }
    apply A; [apply A; [apply A |] |].
    - apply M; [apply D; unfold lept_V; auto_derive; repeat split; lra |]. apply A; apply M; try exact perp; try exact rest; apply K.
    - apply M; [apply D; unfold lept_A; auto_derive; repeat split; lra |]. apply A; apply M; try exact perp; try exact rest; apply K.
    - apply M; [apply M; [| apply M; [| apply sq]] | apply mod_cont]; apply D; unfold lept_S, momentum; auto_derive; repeat split; lra.
    - apply M; [apply M; [| apply M; [| apply sq]] | apply mod_cont]; apply D; unfold lept_P, momentum; auto_derive; repeat split; lra.
  Qed.
End Cont.
Lemma small_is (x : C) : small x = true <-> Cmod x < / 10 ^ 12.
Proof. unfold small. destruct (Rlt_dec (Cmod x) (1 / 10 ^ 12)) as [l | l]; split; try discriminate; intros; try reflexivity; lra. Qed.
Lemma negl_is (w : lfvwc) : negligible w = true <-> tiny w.
Proof.
  unfold negligible, tiny. rewrite forallb_forall. split; intros H x I; apply small_is, H, I.
Qed.
Lemma tiny_dec (w : lfvwc) : tiny w \/ ~ tiny w.
Proof. destruct (negligible w) eqn:E; [left; now apply negl_is | right; intros T; apply negl_is in T; congruence]. Qed.
Lemma negl_no (w : lfvwc) : ~ tiny w -> negligible w = false.
Proof. intros n. destruct (negligible w) eqn:E; [| reflexivity]. exfalso. now apply n, negl_is. Qed.
(** total branching ratios: the integral over the phase space, unless all coefficients are tiny *)
Theorem C182_total (d : lfvdecay) (l1 l2 : lep3) : lfv_ok d -> lfv_cont d -> thr d l1 l2 < top d ->
  (~ tiny (f_wc d l1 l2) -> bpll_lfv_tot d l1 l2 = share_of "pi0" (f_meson d) * f_tau d * RInt (lfv_P d l1 l2) (thr d l1 l2) (top d) /\
    bvll_lfv_BR_tot d l1 l2 = f_tau d * RInt (lfv_V d l1 l2) (thr d l1 l2) (top d)) /\
  (tiny (f_wc d l1 l2) -> bpll_lfv_tot d l1 l2 = 0 /\ bvll_lfv_BR_tot d l1 l2 = 0) /\
  0 <= bpll_lfv_tot d l1 l2 /\ 0 <= bvll_lfv_BR_tot d l1 l2.
Proof.
  intros ok c L. pose proof (thr_pos d l1 l2 ok) as T.
  assert (iP : int (lfv_P d l1 l2) (thr d l1 l2) (top d)) by (apply int_cont; [lra |]; intros x X; apply P_cont; trivial; lra).
  assert (iV : int (lfv_V d l1 l2) (thr d l1 l2) (top d)) by (apply int_cont; [lra |]; intros x X; apply V_cont; trivial; lra).
  assert (N : ~ tiny (f_wc d l1 l2) -> bpll_lfv_tot d l1 l2 = share_of "pi0" (f_meson d) * f_tau d * RInt (lfv_P d l1 l2) (thr d l1 l2) (top d) /\
    bvll_lfv_BR_tot d l1 l2 = f_tau d * RInt (lfv_V d l1 l2) (thr d l1 l2) (top d)).
  { intros n. apply negl_no in n. unfold bpll_lfv_tot, bpll_lfv_int, bvll_lfv_BR_tot. cbv zeta. rewrite n. fold (thr d l1 l2). fold (top d). split.
    - transitivity (nintegrate (fun q2 => bpll_lfv_dbrdq2 d q2 l1 l2) (thr d l1 l2) (top d)); [field; lra |]. unfold nintegrate. rewrite <- (RI_scal _ _ _ _ iP).
      apply RI_ext; [lra |]. intros x X. rewrite (proj1 (C182_rates d l1 l2 x ok ltac:(lra))). ring.
    - f_equal. apply RI_ext; [lra |]. intros x X. apply C182_rates; trivial; lra. }
  assert (Z : tiny (f_wc d l1 l2) -> bpll_lfv_tot d l1 l2 = 0 /\ bvll_lfv_BR_tot d l1 l2 = 0).
  { intros t. apply negl_is in t. unfold bpll_lfv_tot, bpll_lfv_int, bvll_lfv_BR_tot. cbv zeta. rewrite t. split; ring. }
  refine (conj N (conj Z _)). destruct (tiny_dec (f_wc d l1 l2)) as [t | n].
  - destruct (Z t) as (-> & ->). lra.
  - destruct (N n) as (-> & ->). assert (0 <= f_tau d) by apply ok. assert (0 <= share_of "pi0" (f_meson d)) by (unfold share_of; destruct (string_dec _ _); lra).
    split; repeat apply Rmult_le_pos; trivial; apply RI_pos; try lra; trivial; intros x X; apply rates_ge; trivial; lra.
Qed.
(** both charges: the sum of the two decays *)
Theorem C182_both_charges (d : lfvdecay) (l1 l2 : lep3) : bpll_lfv_comb d l1 l2 = bpll_lfv_tot d l1 l2 + bpll_lfv_tot d l2 l1 /\ bpll_lfv_comb d l1 l2 = bpll_lfv_comb d l2 l1.
Proof.
  unfold bpll_lfv_comb, bpll_lfv_tot. cbv zeta. rewrite (Rplus_comm (f_ml d l2) (f_ml d l1)). split; ring.
Qed.
(** the pseudoscalar decays depend on sums of coefficients only *)
Theorem C182_pseudoscalar_sums (d : lfvdecay) (w w' : lep3 -> lep3 -> lfvwc) (l1 l2 : lep3) (q2 : R) : lfv_ok d -> thr d l1 l2 <= q2 <= top d ->
  (w9 (w l1 l2) + w9p (w l1 l2) = w9 (w' l1 l2) + w9p (w' l1 l2) /\ w10 (w l1 l2) + w10p (w l1 l2) = w10 (w' l1 l2) + w10p (w' l1 l2) /\
   wS (w l1 l2) + wSp (w l1 l2) = wS (w' l1 l2) + wSp (w' l1 l2) /\ wP (w l1 l2) + wPp (w l1 l2) = wP (w' l1 l2) + wPp (w' l1 l2))%C ->
  bpll_lfv_dbrdq2 (with_wc d w) q2 l1 l2 = bpll_lfv_dbrdq2 (with_wc d w') q2 l1 l2.
Proof.
  intros ok Q (E9 & E10 & ES & EP). rewrite (proj1 (C182_rates (with_wc d w) l1 l2 q2 ok Q)), (proj1 (C182_rates (with_wc d w') l1 l2 q2 ok Q)).
  cbn [f_meson f_tau with_wc]. f_equal. f_equal. unfold lfv_P. cbv zeta. cbn [f_wc f_ml f_mB f_mM f_ff with_wc]. rewrite E9, E10, ES, EP. reflexivity.
Qed.
(** twice the coefficients, four times the rate *)
Definition times (k : R) (w : lfvwc) : lfvwc := LfvWC (RtoC k * w9 w)%C (RtoC k * w9p w)%C (RtoC k * w10 w)%C (RtoC k * w10p w)%C (RtoC k * wS w)%C (RtoC k * wSp w)%C (RtoC k * wP w)%C (RtoC k * wPp w)%C.
Theorem C182_quadratic (d : lfvdecay) (k : R) (l1 l2 : lep3) (q2 : R) : lfv_ok d -> thr d l1 l2 <= q2 <= top d ->
  let d' := with_wc d (fun i j => times k (f_wc d i j)) in
  bpll_lfv_dbrdq2 d' q2 l1 l2 = k ^ 2 * bpll_lfv_dbrdq2 d q2 l1 l2 /\ bvlilj_obs d' q2 l1 l2 = k ^ 2 * bvlilj_obs d q2 l1 l2.
Proof.
  intros ok Q d'. destruct (C182_rates d' l1 l2 q2 ok Q) as (-> & ->). destruct (C182_rates d l1 l2 q2 ok Q) as (-> & ->).
  assert (P : forall x y : C, Cmod (RtoC k * x + RtoC k * y)%C ^ 2 = k ^ 2 * Cmod (x + y)%C ^ 2) by (intros x y; rewrite <- sq_scale; f_equal; f_equal; ring).
  assert (D : forall x y : C, Cmod (RtoC k * x - RtoC k * y)%C ^ 2 = k ^ 2 * Cmod (x - y)%C ^ 2) by (intros x y; rewrite <- sq_scale; f_equal; f_equal; ring).
  assert (P' : forall x y u v z : C, Cmod (RtoC k * x + RtoC k * y + z * (RtoC k * u + RtoC k * v))%C ^ 2 = k ^ 2 * Cmod (x + y + z * (u + v))%C ^ 2) by (intros; rewrite <- sq_scale; f_equal; f_equal; ring).
  assert (D' : forall x y u v z : C, Cmod (RtoC k * x - RtoC k * y + z * (RtoC k * u - RtoC k * v))%C ^ 2 = k ^ 2 * Cmod (x - y + z * (u - v))%C ^ 2) by (intros; rewrite <- sq_scale; f_equal; f_equal; ring).
  unfold lfv_P, lfv_V. cbv zeta. unfold d'. cbn [f_wc f_ml f_mB f_mM f_ff f_meson f_tau with_wc times w9 w9p w10 w10p wS wSp wP wPp]. rewrite !P, !D, !P', !D'.
  change (lfv_norm (with_wc d (fun i j => times k (f_wc d i j)))) with (lfv_norm d). change (lept_V (with_wc d (fun i j => times k (f_wc d i j)))) with (lept_V d). change (lept_A (with_wc d (fun i j => times k (f_wc d i j)))) with (lept_A d).
  change (lept_S (with_wc d (fun i j => times k (f_wc d i j)))) with (lept_S d). change (lept_P (with_wc d (fun i j => times k (f_wc d i j)))) with (lept_P d).
  split; ring.
Qed.
(** exchanging the leptons and the signs of the scalar coefficients changes nothing *)
Definition flip_S (w : lfvwc) : lfvwc := LfvWC (w9 w) (w9p w) (w10 w) (w10p w) (- wS w)%C (- wSp w)%C (wP w) (wPp w).
Theorem C182_exchange (d : lfvdecay) (l1 l2 : lep3) (q2 : R) : lfv_ok d -> thr d l1 l2 <= q2 <= top d ->
  let d' := with_wc d (fun i j => flip_S (f_wc d j i)) in
  bpll_lfv_dbrdq2 d' q2 l2 l1 = bpll_lfv_dbrdq2 d q2 l1 l2 /\ bvlilj_obs d' q2 l2 l1 = bvlilj_obs d q2 l1 l2.
Proof.
  intros ok Q d'. assert (T : thr d l2 l1 = thr d l1 l2) by (unfold thr; ring). assert (Q' : thr d' l2 l1 <= q2 <= top d') by (change (thr d' l2 l1) with (thr d l2 l1); rewrite T; exact Q).
  destruct (C182_rates d' l2 l1 q2 ok Q') as (-> & ->). destruct (C182_rates d l1 l2 q2 ok Q) as (-> & ->).
  assert (n : lfv_norm d' l2 l1 q2 = lfv_norm d l1 l2 q2).
  { unfold lfv_norm, lepton_phase, d'. cbn [f_wc f_ml f_mB f_mM f_ff f_GF f_alpha f_xit with_wc]. replace ((f_ml d l2 + f_ml d l1) ^ 2) with ((f_ml d l1 + f_ml d l2) ^ 2) by ring. replace ((f_ml d l2 - f_ml d l1) ^ 2) with ((f_ml d l1 - f_ml d l2) ^ 2) by ring. reflexivity. }
  assert (v : lept_V d' l2 l1 q2 = lept_V d l1 l2 q2) by (unfold lept_V, d'; cbn [f_ml with_wc]; ring).
  assert (a : lept_A d' l2 l1 q2 = lept_A d l1 l2 q2) by (unfold lept_A, d'; cbn [f_ml with_wc]; ring).
  assert (s : lept_S d' l2 l1 q2 = lept_S d l1 l2 q2) by (unfold lept_S, d'; cbn [f_ml with_wc]; ring).
  assert (p : lept_P d' l2 l1 q2 = lept_P d l1 l2 q2) by (unfold lept_P, d'; cbn [f_ml with_wc]; ring).
  unfold lfv_P, lfv_V. cbv zeta. rewrite n, v, a, s, p. unfold d'. cbn [f_wc f_ml f_mB f_mM f_ff f_meson f_tau with_wc flip_S w9 w9p w10 w10p wS wSp wP wPp].
  assert (O : forall z : C, Cmod (- z)%C ^ 2 = Cmod z ^ 2) by (intros; now rewrite Cmod_opp).
  assert (S1 : forall x y u v : C, Cmod (- x + - y + RtoC ((f_ml d l2 - f_ml d l1) / q2) * (u + v))%C ^ 2 = Cmod (x + y + RtoC ((f_ml d l1 - f_ml d l2) / q2) * (u + v))%C ^ 2).
  { intros. rewrite <- O. f_equal. f_equal. replace ((f_ml d l2 - f_ml d l1) / q2) with (- ((f_ml d l1 - f_ml d l2) / q2)) by (unfold Rdiv; ring). rewrite RtoC_opp. ring. }
  assert (S2 : forall x y u v : C, Cmod (- x - - y + RtoC ((f_ml d l2 - f_ml d l1) / q2) * (u - v))%C ^ 2 = Cmod (x - y + RtoC ((f_ml d l1 - f_ml d l2) / q2) * (u - v))%C ^ 2).
  { intros. rewrite <- O. f_equal. f_equal. replace ((f_ml d l2 - f_ml d l1) / q2) with (- ((f_ml d l1 - f_ml d l2) / q2)) by (unfold Rdiv; ring). rewrite RtoC_opp. ring. }
  rewrite S1, S2, (Rplus_comm (f_ml d l2) (f_ml d l1)). split; reflexivity.
Qed.

(** ** C183: the decay to a neutral rho has half of the rate of the decay to a charged rho with the same masses, lifetime, form factors and
    coefficients, as for neutral pions (C182) and as for b -> u l nu and b -> d nu nu with a neutral rho (C178); the code forgets the factor *)
Definition ex_lfv (m : string) : lfvdecay := Lfv 5 1 4 1 1 1 (RtoC 1) m (fun l => match l with Le => 1 / 10 | Lmu => 1 / 2 | Ltau => 3 / 2 end) (fun _ _ => 1)
  (fun _ _ => LfvWC (RtoC 1) (RtoC 0) (RtoC 0) (RtoC 0) (RtoC 0) (RtoC 0) (RtoC 0) (RtoC 0)).
Lemma ex_lfv_ok (m : string) : lfv_ok (ex_lfv m) /\ lfv_cont (ex_lfv m) /\ thr (ex_lfv m) Le Lmu < top (ex_lfv m) /\ ~ tiny (f_wc (ex_lfv m) Le Lmu).
Proof.
  refine (conj _ (conj _ (conj _ _))).
  - unfold lfv_ok, ex_lfv. cbn [f_mB f_mM f_mb f_ml f_tau]. refine (conj _ (conj _ (conj _ (conj _ _)))); try lra. intros [| |]; lra.
  - intros k q2 _. unfold ex_lfv. cbn [f_ff]. apply continuous_const.
  - unfold thr, top, ex_lfv. cbn [f_mB f_mM f_ml]. lra.
  - intros T. specialize (T (RtoC 1) (or_introl eq_refl)). rewrite Cmod_R, Rabs_R1 in T. assert (/ 10 ^ 12 < 1) by lra. lra.
Qed.
Lemma ex_lfv_pos (m : string) : 0 < RInt (lfv_V (ex_lfv m) Le Lmu) (thr (ex_lfv m) Le Lmu) (top (ex_lfv m)).
Proof.
  destruct (ex_lfv_ok m) as (ok & c & L & _). pose proof (thr_pos (ex_lfv m) Le Lmu ok) as T. apply RInt_gt_0; [exact L | |].
  2: { intros x X. apply V_cont; trivial; lra. }
  intros x X. pose proof PI_RGT_0 as P. destruct (lept_ge (ex_lfv m) Le Lmu x ok ltac:(lra)) as (lv & la & ls & lp).
  unfold thr, top, ex_lfv in X. cbn [f_mB f_mM f_ml] in X.
  assert (n : 0 < lfv_norm (ex_lfv m) Le Lmu x).
  { unfold lfv_norm, lepton_phase, momentum, ex_lfv. cbn [f_mB f_mM f_ml f_GF f_alpha f_xit]. rewrite Cmod_R, Rabs_R1.
    assert (s2 : 0 < sqrt 2) by (apply sqrt_lt_R0; lra).
    apply Rmult_lt_0_compat; [apply Rmult_lt_0_compat; [apply Rmult_lt_0_compat |] |].
    - apply Rmult_lt_0_compat; [| lra]. apply pow_lt. apply Rmult_lt_0_compat; [lra |]. apply Rinv_0_lt_compat. apply Rmult_lt_0_compat; assumption.
    - apply sqrt_lt_R0. apply Rmult_lt_0_compat; lra.
    - apply sqrt_lt_R0. apply Rmult_lt_0_compat; lra.
    - apply Rinv_0_lt_compat. assert (0 < PI ^ 3) by now apply pow_lt. apply Rmult_lt_0_compat; lra. }
  assert (v : 0 < lept_V (ex_lfv m) Le Lmu x).
  { unfold lept_V, ex_lfv. cbn [f_ml]. apply Rmult_lt_0_compat; [apply Rmult_lt_0_compat |]; try lra. apply Rmult_lt_0_compat; [lra | apply Rinv_0_lt_compat; lra]. }
  assert (mo : 0 < momentum 5 1 x) by (unfold momentum; apply Rmult_lt_0_compat; lra).
  unfold lfv_V. cbv zeta. apply Rmult_lt_0_compat; [exact n |]. clear n.
  set (LV := lept_V _ _ _ _) in *. set (LA := lept_A _ _ _ _) in *. set (LS := lept_S _ _ _ _) in *. set (LP := lept_P _ _ _ _) in *. clearbody LV LA LS LP.
  unfold ex_lfv. cbn [f_mB f_mM f_ml f_ff f_wc w9 w9p w10 w10p wS wSp wP wPp].
  assert (o : Cmod (RtoC 1 - RtoC 0)%C ^ 2 = 1) by (rewrite <- RtoC_minus, Rminus_0_r, Cmod_R, Rabs_R1; ring). rewrite o.
  assert (g : forall z : C, 0 <= Cmod z ^ 2) by (intros; apply pow2_ge_0).
  assert (i : 0 < / x) by (apply Rinv_0_lt_compat; lra).
  set (mm := momentum 5 1 x) in *. clearbody mm.
  repeat apply Rplus_lt_le_0_compat.
  - apply Rmult_lt_0_compat; [exact v |]. apply Rplus_le_lt_0_compat; [apply Rmult_le_pos; [lra | apply g] |]. unfold Rdiv. nra.
  - apply Rmult_le_pos; [exact la |]. apply Rplus_le_le_0_compat; (apply Rmult_le_pos; [| apply g]); unfold Rdiv; nra.
  - apply Rmult_le_pos; [| apply g]. apply Rmult_le_pos; [exact ls | lra].
  - apply Rmult_le_pos; [| apply g]. apply Rmult_le_pos; [exact lp | lra].
Qed.
Theorem C183_refuted : ~ (forall d l1 l2, lfv_ok d -> lfv_cont d -> thr d l1 l2 < top d ->
  bvll_lfv_BR_tot (with_meson d "rho0") l1 l2 = 1 / 2 * bvll_lfv_BR_tot (with_meson d "rho+") l1 l2).
Proof.
  intros H. destruct (ex_lfv_ok "phi") as (ok & c & L & _). specialize (H (ex_lfv "phi") Le Lmu ok c L).
  change (with_meson (ex_lfv "phi") "rho0") with (ex_lfv "rho0") in H. change (with_meson (ex_lfv "phi") "rho+") with (ex_lfv "rho+") in H.
  assert (E : forall m, bvll_lfv_BR_tot (ex_lfv m) Le Lmu = f_tau (ex_lfv m) * RInt (lfv_V (ex_lfv m) Le Lmu) (thr (ex_lfv m) Le Lmu) (top (ex_lfv m))).
  { intros m. destruct (ex_lfv_ok m) as (ok' & c' & L' & n). now apply (C182_total (ex_lfv m) Le Lmu ok' c' L'). }
  rewrite !E in H. change (lfv_V (ex_lfv "rho0") Le Lmu) with (lfv_V (ex_lfv "rho+") Le Lmu) in H. change (thr (ex_lfv "rho0")) with (thr (ex_lfv "rho+")) in H. change (top (ex_lfv "rho0")) with (top (ex_lfv "rho+")) in H.
  change (f_tau (ex_lfv "rho0")) with 1 in H. change (f_tau (ex_lfv "rho+")) with 1 in H. pose proof (ex_lfv_pos "rho+") as P.
  set (r := RInt (lfv_V (ex_lfv "rho+") Le Lmu) (thr (ex_lfv "rho+") Le Lmu) (top (ex_lfv "rho+"))) in *. assert (H' : 1 * (r : R) = 1 / 2 * (1 * (r : R))) by exact H. assert (P' : 0 < (r : R)) by exact P. lra.
Qed.

Print Assumptions C182_rates.
Print Assumptions C182_outside.
Print Assumptions C182_total.
Print Assumptions C182_both_charges.
Print Assumptions C182_pseudoscalar_sums.
Print Assumptions C182_quadratic.
Print Assumptions C182_exchange.
Print Assumptions C183_refuted.
