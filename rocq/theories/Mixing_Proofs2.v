From Coq Require Import Reals Lra.
From Coquelicot Require Import Coquelicot.
From Verif Require Import Base BaseLemmas Basics_Model Mixing_Model.
Local Open Scope R_scope.

(** ** the box function *)
Definition G_box (x y : R) : R :=
  (4 - 7 * x * y) / (4 - 4 * x - 4 * y + 4 * x * y)
  + (x ^ 2 * (4 + (-8 + x) * y) * ln x) / (4 * (-1 + x) ^ 2 * (x - y))
  - ((4 + x * (-8 + y)) * y ^ 2 * ln y) / (4 * (x - y) * (-1 + y) ^ 2).
Lemma F_sym x y : x <> 1 -> y <> 1 -> F_box x y = F_box y x.
Proof.
  intros Hx Hy. unfold F_box.
  destruct (Req_EM_T x 0) as [X | X], (Req_EM_T y 0) as [Y | Y]; try reflexivity.
  destruct (Req_EM_T x y) as [E | E], (Req_EM_T y x) as [E' | E']; try congruence.
  field. repeat split; lra || (replace (4 - 4 * x - 4 * y + 4 * x * y) with (4 * ((1 - x) * (1 - y))) by ring) || idtac.
  all: try lra.
  all: try (intros Z; assert (Z' : (1 - x) * (1 - y) = 0) by lra; apply Rmult_integral in Z' as [Z' | Z']; lra).
Qed.
Lemma S0_gim_fst y xu : y <> 1 -> xu <> 1 -> S0_box xu y xu = 0.
Proof. intros. unfold S0_box. rewrite (F_sym y xu) by assumption. ring. Qed.
Lemma S0_gim_snd x xu : S0_box x xu xu = 0.
Proof. unfold S0_box. ring. Qed.
Lemma S0_sym x y xu : x <> 1 -> y <> 1 -> S0_box x y xu = S0_box y x xu.
Proof. intros. unfold S0_box. rewrite (F_sym x y) by assumption. ring. Qed.

(** [y ln y] tends to 0 *)
Lemma xln_bound y : 0 < y < 1 -> Rabs (y * ln y) <= 2 * sqrt y.
Proof.
  intros [H0 H1]. pose proof (sqrt_lt_R0 y H0) as Hs. set (s := sqrt y) in *.
  assert (E : y = s * s) by (unfold s; rewrite sqrt_sqrt; lra).
  assert (L : ln y = - (2 * ln (/ s))).
  { rewrite E. rewrite ln_Rinv by exact Hs. rewrite ln_mult by assumption. ring. }
  assert (B : ln (/ s) <= / s - 1).
  { pose proof (exp_ineq1_le (ln (/ s))) as X. rewrite exp_ln in X by (apply Rinv_0_lt_compat; exact Hs). lra. }
  assert (B0 : 0 <= ln (/ s)).
  { rewrite <- ln_1. apply Rcomplements.ln_le; [lra |]. rewrite <- Rinv_1. apply Rinv_le_contravar; [exact Hs |].
    unfold s. rewrite <- sqrt_1. apply sqrt_le_1_alt. lra. }
  rewrite L. replace (y * - (2 * ln (/ s))) with (- (y * (2 * ln (/ s)))) by ring. rewrite Rabs_Ropp, Rabs_pos_eq by (apply Rmult_le_pos; lra).
  apply Rle_trans with (y * (2 * / s)). { apply Rmult_le_compat_l; lra. }
  rewrite E. right. field. lra.
Qed.
Lemma ln_nonpos y : y <= 0 -> ln y = 0.
Proof. intros H. unfold ln. destruct (Rlt_dec 0 y) as [L | L]; [exfalso; lra | reflexivity]. Qed.
Lemma xln_cont : continuity_pt (fun y => y * ln y) 0.
Proof.
  intros eps He. exists (Rmin 1 ((eps / 2) ^ 2)). split; [apply Rmin_pos; [lra | apply pow_lt; lra] |].
  intros z [_ Hz]. unfold dist in *. simpl in *. unfold R_dist in *. rewrite Rmult_0_l, !Rminus_0_r in *.
  destruct (Rle_dec z 0) as [L | L]; [rewrite (ln_nonpos z L), Rmult_0_r, Rabs_R0; exact He |].
  rewrite Rabs_pos_eq in Hz by lra. pose proof (Rmin_l 1 (eps / 2 * (eps / 2 * 1))). pose proof (Rmin_r 1 (eps / 2 * (eps / 2 * 1))).
  apply Rle_lt_trans with (2 * sqrt z); [apply xln_bound; lra |].
  assert (sqrt z < eps / 2); [| lra]. rewrite <- (sqrt_Rsqr (eps / 2)) by lra. apply sqrt_lt_1_alt. unfold Rsqr. lra.
Qed.

Lemma cont_ext_at (f g : R -> R) x : (exists d, 0 < d /\ forall y, Rabs (y - x) < d -> f y = g y) -> continuity_pt f x -> continuity_pt g x.
Proof.
  intros [d [Hd He]] Hf. apply (continuity_pt_locally_ext f g d x Hd); [| exact Hf].
  intros y Hy. apply He. exact Hy.
Qed.
Lemma derive_cont (f : R -> R) x : ex_derive f x -> continuity_pt f x.
Proof. intros H. apply continuity_pt_filterlim. apply (ex_derive_continuous f x H). Qed.

Lemma F0_cont y : 0 <= y -> y <> 1 -> continuity_pt (F_box 0) y.
Proof.
  intros H0 H1. destruct (Req_EM_T y 0) as [-> | Hy].
  - apply cont_ext_at with (fun y => (1 - y + y * ln y) / (-1 + y) ^ 2).
    + exists (1 / 2). split; [lra |]. intros y Hy. unfold F_box. destruct (Req_EM_T 0 0) as [_ | F]; [| lra].
      destruct (Req_EM_T y 0) as [-> | Y]; [| reflexivity]. rewrite Rmult_0_l. field.
    + unfold Rdiv. apply continuity_pt_mult.
      * apply continuity_pt_plus; [apply derive_cont; auto_derive; exact I | exact xln_cont].
      * apply derive_cont. auto_derive. intros E. ring_simplify in E. lra.
  - apply cont_ext_at with (fun y => (1 - y + y * ln y) / (-1 + y) ^ 2).
    + exists y. split; [lra |]. intros z Hz. apply Rabs_def2 in Hz. unfold F_box. destruct (Req_EM_T 0 0) as [_ | F]; [| lra].
      destruct (Req_EM_T z 0); [lra | reflexivity].
    + apply derive_cont. auto_derive. repeat split; try lra. intros E.
      assert (E' : (y - 1) * (y - 1) = 0) by (rewrite <- E; ring). apply Rmult_integral in E'. lra.
Qed.

Lemma den_ne x y : x <> 1 -> y <> 1 -> 4 - 4 * x - 4 * y + 4 * x * y <> 0.
Proof. intros Hx Hy Z. assert (Z' : (1 - x) * (1 - y) = 0) by lra. apply Rmult_integral in Z' as [Z' | Z']; lra. Qed.
Lemma sq_ne x : x <> 1 -> (-1 + x) ^ 2 <> 0.
Proof. intros H. apply pow_nonzero. lra. Qed.

Lemma Fx_cont_zero x : 0 < x -> x <> 1 -> continuity_pt (F_box x) 0.
Proof.
  intros H0 H1.
  apply cont_ext_at with (fun y => ((4 - 7 * x * y) / (4 - 4 * x - 4 * y + 4 * x * y)
    + (x ^ 2 * (4 + (-8 + x) * y) * ln x) / (4 * (-1 + x) ^ 2 * (x - y)))
    - (((4 + x * (-8 + y)) * y) / (4 * (x - y) * (-1 + y) ^ 2)) * (y * ln y)).
  - exists (Rmin x 1). split; [apply Rmin_pos; lra |]. intros y Hy.
    pose proof (Rmin_l x 1). pose proof (Rmin_r x 1). apply Rabs_def2 in Hy. unfold F_box.
    destruct (Req_EM_T x 0); [lra |]. destruct (Req_EM_T y 0) as [-> | Y].
    + field. repeat split; lra.
    + destruct (Req_EM_T x y); [lra |]. field. repeat split; try lra. apply den_ne; lra.
  - apply continuity_pt_minus.
    + apply derive_cont. auto_derive. repeat split; try lra.
      intros E. apply Rmult_integral in E as [E | E]; [| lra]. apply (sq_ne x H1). simpl. lra.
    + apply continuity_pt_mult; [| exact xln_cont]. apply derive_cont. auto_derive.
      intros E. ring_simplify in E. lra.
Qed.
Lemma Fx_cont_off x y : 0 < x -> x <> 1 -> 0 < y -> y <> 1 -> y <> x -> continuity_pt (F_box x) y.
Proof.
  intros H0 H1 Hy0 Hy1 Hxy. apply cont_ext_at with (G_box x).
  - exists (Rmin y (Rabs (x - y))). split; [apply Rmin_pos; [lra | apply Rabs_pos_lt; lra] |].
    intros z Hz. pose proof (Rmin_l y (Rabs (x - y))). pose proof (Rmin_r y (Rabs (x - y))).
    assert (Hz' : Rabs (z - y) < Rabs (x - y)) by lra. assert (Hz2 : Rabs (z - y) < y) by lra. apply Rabs_def2 in Hz2.
    unfold F_box. destruct (Req_EM_T x 0); [lra |]. destruct (Req_EM_T z 0); [lra |].
    destruct (Req_EM_T x z) as [-> |]; [lra | reflexivity].
  - unfold G_box. apply derive_cont. auto_derive. repeat split; try lra.
    + apply den_ne; assumption.
    + intros E. apply Rmult_integral in E as [E | E]; [| lra]. apply (sq_ne x H1). lra.
    + intros E. apply Rmult_integral in E as [E | E]; [lra |]. apply (sq_ne y Hy1). exact E.
Qed.
(** a difference quotient, with the derivative at the point *)
Lemma quotient_cont (N : R -> R) x l : derivable_pt_lim N x l -> N x = 0 ->
  continuity_pt (fun y => if Req_EM_T x y then - l else N y / (x - y)) x.
Proof.
  intros HN H0 eps He. destruct (HN eps He) as [d Hd]. exists d. split; [apply cond_pos |].
  intros y [[_ Hne] Hy]. unfold dist in *. simpl in *. unfold R_dist in *.
  destruct (Req_EM_T x y) as [E | E]; [congruence |]. destruct (Req_EM_T x x) as [_ | F]; [| congruence].
  specialize (Hd (y - x) ltac:(lra) Hy). replace (x + (y - x)) with y in Hd by ring. rewrite H0, Rminus_0_r in Hd.
  replace (N y / (x - y) - - l) with (- (N y / (y - x) - l)) by (field; lra). rewrite Rabs_Ropp. exact Hd.
Qed.
Definition Nbox (x y : R) : R :=
  x ^ 2 * (4 + (-8 + x) * y) * ln x / (4 * (-1 + x) ^ 2) - (4 + x * (-8 + y)) * y ^ 2 * ln y / (4 * (-1 + y) ^ 2).
Definition Nbox' (x : R) : R :=
  x ^ 2 * (-8 + x) * ln x / (4 * (-1 + x) ^ 2)
  - ((x * x ^ 2 * ln x + (4 + x * (-8 + x)) * (2 * x) * ln x + (4 + x * (-8 + x)) * x) / (4 * (-1 + x) ^ 2)
     - (4 + x * (-8 + x)) * x ^ 2 * ln x * (2 * (-1 + x)) / (4 * (-1 + x) ^ 4)).
Lemma Nbox_derive x : 0 < x -> x <> 1 -> derivable_pt_lim (Nbox x) x (Nbox' x).
Proof.
  intros H0 H1. apply is_derive_Reals. unfold Nbox, Nbox'. auto_derive.
  - repeat split; try lra. intros E. apply (sq_ne x H1). simpl in *. lra.
  - field. repeat split; lra.
Qed.
Lemma Fx_cont_diag x : 0 < x -> x <> 1 -> continuity_pt (F_box x) x.
Proof.
  intros H0 H1.
  apply cont_ext_at with (fun y => (4 - 7 * x * y) / (4 - 4 * x - 4 * y + 4 * x * y) + (if Req_EM_T x y then - Nbox' x else Nbox x y / (x - y))).
  - exists (Rmin x (Rabs (x - 1))). split; [apply Rmin_pos; [lra | apply Rabs_pos_lt; lra] |]. intros y Hy.
    pose proof (Rmin_l x (Rabs (x - 1))). pose proof (Rmin_r x (Rabs (x - 1))).
    assert (Hy1 : y <> 1). { intros ->. rewrite Rabs_minus_sym in Hy. lra. }
    assert (Hy2 : Rabs (y - x) < x) by lra. apply Rabs_def2 in Hy2.
    unfold F_box. destruct (Req_EM_T x 0); [lra |]. destruct (Req_EM_T y 0); [lra |]. destruct (Req_EM_T x y) as [<- | E].
    + unfold Nbox'. field. split; [lra |]. replace (4 - 4 * x - 4 * x + 4 * x * x) with (4 - 4 * x - 4 * x + 4 * x * x) by ring. apply den_ne; lra.
    + unfold Nbox. field. repeat split; try lra. apply den_ne; lra.
  - apply continuity_pt_plus; [| apply quotient_cont; [apply Nbox_derive; assumption | unfold Nbox; field; lra]].
    apply derive_cont. auto_derive. repeat split. pose proof (den_ne x x H1 H1). lra.
Qed.
Lemma F_cont x y : 0 <= x -> 0 <= y -> x <> 1 -> y <> 1 -> continuity_pt (F_box x) y.
Proof.
  intros Hx Hy Hx1 Hy1. destruct (Req_EM_T x 0) as [-> | X]; [now apply F0_cont |].
  destruct (Req_EM_T y 0) as [-> | Y]; [apply Fx_cont_zero; lra |].
  destruct (Req_EM_T y x) as [-> | E]; [apply Fx_cont_diag | apply Fx_cont_off]; lra.
Qed.
