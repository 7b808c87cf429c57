(** * Properties of numerical distributions *)
From Coq Require Import Reals Lra Lia Sorted.
From Coquelicot Require Import Coquelicot.
From Verif Require Import Base BaseLemmas Dist_Model Dist_Spec Dist_Proofs Dist_Proofs2 Numerical_Model Numerical_Spec Numerical_Proofs Numerical_Proofs2.
Local Open Scope R_scope.

(** ** C45 *)
(** For every documented table: construction succeeds (with a central value inside the range, or the
    mode), the density integrates to one, is nowhere negative and vanishes outside the support; the
    cumulative distribution [F] rises from 0 to 1 and the quantile function inverts it, staying in the
    support (so do the random values, which are quantiles of a uniform random number). *)
Theorem C45_probability_distribution x y c : table x y -> (forall v, c = Some v -> first_of x <= v <= last_of x) ->
  exists d, mk_numerical x y c = Ok d /\
    nsupport d = (first_of x, last_of x) /\ first_of x <= ncentral d <= last_of x /\ (forall v, c = Some v -> ncentral d = v) /\
    is_RInt (density d) (first_of x) (last_of x) 1 /\
    (forall t, 0 <= density d t) /\ (forall t, t < first_of x \/ last_of x < t -> density d t = 0) /\
    exists F, (forall t, first_of x <= t <= last_of x -> ncdf_at d t = Ok (F t)) /\
      F (first_of x) = 0 /\ F (last_of x) = 1 /\
      (forall t t', first_of x <= t -> t <= t' -> t' <= last_of x -> F t <= F t') /\
      (forall r, 0 <= r <= 1 -> exists q, nppf d r = Ok q /\ nrandom d r = Ok q /\ first_of x <= q <= last_of x /\ F q = r) /\
      (forall r r' q q', 0 <= r -> r <= r' -> r' <= 1 -> nppf d r = Ok q -> nppf d r' = Ok q' -> q <= q').
Proof.
  intros Ht Hc. destruct (mk_numerical_spec x y c Ht Hc) as (d & cdf & E & H1 & H2 & H3 & H4 & H5 & H6 & H7 & H8 & H9 & H10 & H11).
  pose proof (table_ne _ _ Ht) as Hne. destruct Ht as (Hl & Hx & Hy & _).
  exists d. split; [exact E|]. split; [unfold nsupport; rewrite H1, <- first_of_eq, <- last_of_eq; reflexivity|]. split; [exact H4|]. split; [exact H3|].
  split; [apply (g_integral x y d cdf); auto|]. split; [intro t; apply (g_density_nonneg x y d cdf); auto|]. split; [intro t; apply (g_density_out x y d); auto|].
  exists (interp_from x cdf). split; [apply g_cdf; auto|]. split; [eapply g_cdf_first; eauto|]. split; [apply g_cdf_last; auto|].
  split; [intros t t' Ha Hb _; apply g_cdf_mono; auto|]. split.
  - intros r Hr. destruct (g_ppf x d cdf) with (r := r) as (q & Eq & Hq & HF); auto. exists q. auto.
  - eapply g_ppf_mono; eauto.
Qed.
Print Assumptions C45_probability_distribution.
(** a central value outside the table is rejected *)
Theorem C45_central_outside x y v : x <> [] -> v < first_of x \/ last_of x < v -> mk_numerical x y (Some v) = Err ValueError.
Proof.
  intros Hne Hv. rewrite first_of_eq, last_of_eq in Hv. unfold mk_numerical. destruct x as [|x0 x']; [congruence|]. cbn [hd] in Hv.
  destruct (Rle_dec x0 v); [|reflexivity]. destruct (Rle_dec v (last (x0 :: x') 0)); [lra|reflexivity].
Qed.
Print Assumptions C45_central_outside.
Lemma argmax_spec x : forall y bx best, length x = length y ->
  exists i, (i < length (bx :: x))%nat /\ argmax_from bx best x y = nth i (bx :: x) 0 /\
    forall j, (j < length (best :: y))%nat -> nth j (best :: y) 0 <= nth i (best :: y) 0.
Proof.
  induction x as [|a x IH]; intros y bx best Hl.
  - destruct y; [|discriminate]. exists 0%nat. cbn. split; [lia|]. split; [reflexivity|]. intros [|j] Hj; [lra|lia].
  - destruct y as [|fa y]; [discriminate|]. injection Hl as Hl. cbn [argmax_from]. destruct (Rlt_dec best fa) as [Hb|Hb].
    + destruct (IH y a fa Hl) as (i & Hi & E & Hmax). exists (S i). split; [cbn in *; lia|]. split; [exact E|].
      intros [|j] Hj; [|apply (Hmax j); cbn in *; lia]. cbn [nth]. pose proof (Hmax 0%nat ltac:(cbn; lia)) as H0. cbn [nth] in H0. change (nth i (fa :: y) 0) with (nth i (fa :: y) 0) in H0. lra.
    + destruct (IH y bx best Hl) as (i & Hi & E & Hmax). destruct i as [|i].
      * exists 0%nat. split; [cbn; lia|]. split; [exact E|]. intros [|[|j]] Hj; cbn [nth]; [lra|lra|]. apply (Hmax (S j)). cbn in *; lia.
      * exists (S (S i)). split; [cbn in *; lia|]. split; [exact E|]. intros [|[|j]] Hj.
        -- apply (Hmax 0%nat). cbn; lia.
        -- pose proof (Hmax 0%nat ltac:(cbn; lia)) as H0. cbn [nth] in H0 |- *. lra.
        -- apply (Hmax (S j)). cbn in *; lia.
Qed.
(** the default central value is a position with the largest tabulated density *)
Theorem C45_default_central_is_mode x y d : table x y -> mk_numerical x y None = Ok d ->
  exists i, (i < length x)%nat /\ ncentral d = nth i x 0 /\ forall j, (j < length y)%nat -> nth j y 0 <= nth i y 0.
Proof.
  intros (Hl & _). unfold mk_numerical. destruct x as [|x0 x']; [discriminate|]. destruct y as [|y0 y']; [discriminate|]. cbn [bind].
  destruct (negb _); [discriminate|]. intro E. injection E as <-. cbn [ncentral]. apply argmax_spec. cbn in Hl; lia.
Qed.
Print Assumptions C45_default_central_is_mode.
(** In the accepted table with densities 0, 0, 1 only the last density is positive: the cumulative
    distribution is undefined (0/0), so no quantile, no random value and no cumulative probability
    exists. *)
Theorem C89_only_last_density_refuted : exists d, mk_numerical [0; 1; 2] [0; 0; 1] None = Ok d /\
  (forall r q, nppf d r <> Ok q) /\ (forall r q, nrandom d r <> Ok q) /\ (forall t F, ncdf_at d t <> Ok F).
Proof.
  assert (E : exists d, mk_numerical [0; 1; 2] [0; 0; 1] None = Ok d /\ ncdf d = None).
  { unfold mk_numerical. cbn [bind argmax_from last length Nat.eqb negb]. destruct (Req_EM_T (trapz _ _) 0) as [Ht|Ht].
    - eexists. split; reflexivity.
    - set (yn := map _ _). assert (Eyn : exists a, yn = [0; 0; a]).
      { unfold yn. cbn [map]. assert (E0 : forall t, 0 / t = 0) by (intro t; unfold Rdiv; ring).
        rewrite E0. destruct (Rlt_dec 0 0); [lra|]. eexists. reflexivity. }
      destruct Eyn as (a & ->). cbn [cumulate last].
      destruct (Req_EM_T (0 + 0 * (1 - 0) + 0 * (2 - 1)) 0) as [|Hn]; [|exfalso; apply Hn; ring]. eexists. split; reflexivity. }
  destruct E as (d & E & Ec). exists d. split; [exact E|]. unfold nrandom, nppf, ncdf_at. rewrite Ec. repeat split; discriminate.
Qed.
Print Assumptions C89_only_last_density_refuted.
Example C45_instance : table [0; 1; 3] [1; 2; 0].
Proof.
  split; [reflexivity|]. split; [repeat (constructor; try lra)|]. split; [repeat (constructor; try lra)|]. exists 1%nat. cbn. split; [lia|lra].
Qed.

(** ** C84 (fails): the cumulative distribution is the integral of the density.  The triangular table
    0, 1, 0 has half of its probability below the middle, but the cumulative distribution is 0 there. *)
Theorem C84_cdf_is_not_the_integral_refuted : exists d, is_numerical d /\ mk_numerical [0; 1; 2] [0; 1; 0] None = Ok d /\
  is_RInt (density d) 0 1 (1 / 2) /\ ncdf_at d 1 = Ok 0.
Proof.
  assert (Ht : table [0; 1; 2] [0; 1; 0]).
  { split; [reflexivity|]. split; [repeat (constructor; try lra)|]. split; [repeat (constructor; try lra)|]. exists 1%nat. cbn. split; [lia|lra]. }
  assert (ET : trapz [0; 1; 2] [0; 1; 0] = 1) by (cbn; lra).
  assert (E : exists d, mk_numerical [0; 1; 2] [0; 1; 0] None = Ok d /\ nx d = [0; 1; 2] /\ ny_norm d = Some [0; 1; 0] /\ ncdf d = Some [0; 0; 1]).
  { unfold mk_numerical. cbn [bind argmax_from length Nat.eqb negb]. rewrite ET. destruct (Req_EM_T 1 0); [lra|].
    set (yn := map _ _). assert (Eyn : yn = [0; 1; 0]).
    { unfold yn. cbn [map]. replace (0 / 1) with 0 by field. replace (1 / 1) with 1 by field. destruct (Rlt_dec 0 0), (Rlt_dec 1 0); try lra. reflexivity. }
    rewrite Eyn. set (cum := cumulate _ _ _). assert (Ec : cum = [0; 0; 1]).
    { unfold cum. cbn [cumulate]. replace (0 + 0 * (1 - 0)) with 0 by ring. replace (0 + 1 * (2 - 1)) with 1 by ring. reflexivity. }
    rewrite Ec. cbn [last]. destruct (Req_EM_T 1 0); [lra|]. eexists. split; [reflexivity|]. cbn [nx ny_norm ncdf map].
    replace (0 / 1) with 0 by field. replace (1 / 1) with 1 by field. auto. }
  destruct E as (d & E & Ex & Ey & Ec). exists d. split; [exists [0; 1; 2], [0; 1; 0], None; auto|]. split; [exact E|]. split.
  - eapply is_RInt_ext; [|replace (1 / 2) with ((1 - 0) * (0 + 1) / 2) by field; apply (line_integral 0 1 0 1); lra].
    intros t Hr. rewrite Rmin_left, Rmax_right in Hr by lra. unfold density, npdf. rewrite Ey, Ex. unfold interp. cbn [last].
    destruct (Rlt_dec t 0); [lra|]. destruct (Rlt_dec 2 t); [lra|]. cbn [interp_from]. destruct (Rlt_dec t 1); [reflexivity|lra].
  - unfold ncdf_at. rewrite Ec, Ex. unfold interp. cbn [last]. destruct (Rlt_dec 1 0); [lra|]. destruct (Rlt_dec 2 1); [lra|].
    cbn [interp_from]. destruct (Rlt_dec 1 1); [lra|]. destruct (Rlt_dec 1 2); [|lra]. f_equal. field.
Qed.
Print Assumptions C84_cdf_is_not_the_integral_refuted.

(** ** C85: error ranges of a numerical distribution *)
Lemma interp_beyond c : forall x t, length c = length x -> Sorted Rle c -> c <> [] -> last c 0 <= t -> interp_from c x t = last x 0.
Proof.
  induction c as [|a [|b c] IH]; intros x t Hl Hs Hne Ht; [congruence| |].
  - destruct x as [|x0 [|]]; try discriminate. reflexivity.
  - destruct x as [|x0 [|x1 x]]; try discriminate. apply sorted_cons_inv in Hs as [Hab Hs]. rewrite !last_cons in *.
    pose proof (sorted_le_last b c Hs).
    change (interp_from (a :: b :: c) (x0 :: x1 :: x) t) with
      (if Rlt_dec t b then x0 + (x1 - x0) / (b - a) * (t - a) else interp_from (b :: c) (x1 :: x) t).
    destruct (Rlt_dec t b); [lra|]. apply IH; auto. discriminate.
Qed.
(** The 'central' errors cover the fraction [cl] of the probability on each side of the central value
    (so together the fraction [cl] of all), 'limit' gives one-sided limits, the errors are not negative
    as far as there is probability on the side in question, other methods raise ValueError. *)
Theorem C85_error_ranges conf d nsigma : is_numerical d -> let cl := conf nsigma in let c := ncentral d in 0 < cl <= 1 ->
  exists F, (forall t, in_interval t (nsupport d) -> ncdf_at d t = Ok (F t)) /\
   (exists el er, nerror_left d conf Central nsigma = Ok el /\ nerror_right d conf Central nsigma = Ok er /\
      F c - F (c - el) = cl * F c /\ F (c + er) - F c = cl * (1 - F c) /\ F (c + er) - F (c - el) = cl /\
      in_interval (c - el) (nsupport d) /\ in_interval (c + er) (nsupport d) /\ (0 < F c -> 0 <= el) /\ 0 <= er) /\
   (exists el er, nerror_left d conf Limit nsigma = Ok el /\ nerror_right d conf Limit nsigma = Ok er /\
      F (c - el) = 1 - cl /\ F (c + er) = cl) /\
   nerror_left d conf UnknownMethod nsigma = Err ValueError /\ nerror_right d conf UnknownMethod nsigma = Err ValueError.
Proof.
  intros Hd cl c Hcl. destruct (numerical_facts d Hd) as (x & y & cdf & Ht & H1 & H2 & H3 & H4 & H5 & H6 & H7 & H8 & H9 & H10).
  pose proof (table_ne _ _ Ht) as Hne. destruct Ht as (Hl & Hx & Hy & _).
  assert (HF : forall t, first_of x <= t <= last_of x -> ncdf_at d t = Ok (interp_from x cdf t)) by (apply g_cdf; auto).
  assert (Hs : nsupport d = (first_of x, last_of x)) by (unfold nsupport; rewrite H1, <- first_of_eq, <- last_of_eq; reflexivity).
  assert (Hmono : forall t t', first_of x <= t -> t <= t' -> interp_from x cdf t <= interp_from x cdf t') by (intros; apply g_cdf_mono; auto).
  assert (Hq : forall r, 0 <= r <= 1 -> exists q, nppf d r = Ok q /\ first_of x <= q <= last_of x /\ interp_from x cdf q = r).
  { intros r Hr. apply (g_ppf x d cdf); auto. }
  assert (F0 : interp_from x cdf (first_of x) = 0) by (eapply g_cdf_first; eauto).
  assert (F1 : interp_from x cdf (last_of x) = 1) by (apply g_cdf_last; auto).
  exists (interp_from x cdf). rewrite Hs. unfold in_interval; cbn [fst snd]. split; [exact HF|].
  set (F := interp_from x cdf) in *. set (Fc := F c) in *.
  assert (HFc : 0 <= Fc <= 1).
  { unfold Fc. split; [rewrite <- F0|rewrite <- F1]; apply Hmono; fold c in H3; lra. }
  destruct (Hq (Fc * (1 - cl))) as (ql & El & Rl & Vl); [nra|].
  destruct (Hq (Fc + (1 - Fc) * cl)) as (qr & Er & Rr & Vr); [nra|].
  destruct (Hq (1 - cl)) as (pl & El' & Rl' & Vl'); [lra|]. destruct (Hq cl) as (pr & Er' & Rr' & Vr'); [lra|].
  split; [|split].
  - exists (c - ql), (qr - c). unfold nerror_left, nerror_right. fold cl. fold c. rewrite HF by exact H3. cbn [bind]. fold F. fold Fc. rewrite El, Er. cbn [bind].
    split; [reflexivity|]. split; [reflexivity|].
    replace (c - (c - ql)) with ql by ring. replace (c + (qr - c)) with qr by ring. rewrite Vl, Vr. repeat split; try lra.
    + intro Hp. destruct (Rle_dec ql c) as [|Hn]; [lra|]. exfalso. pose proof (Hmono c ql ltac:(fold c in H3; lra) ltac:(lra)) as Hm. fold F in Hm. rewrite Vl in Hm. fold Fc in Hm. nra.
    + destruct (Rle_dec c qr) as [|Hn]; [lra|]. exfalso. pose proof (Hmono qr c ltac:(lra) ltac:(lra)) as Hm. fold F in Hm. rewrite Vr in Hm. fold Fc in Hm.
      destruct (Req_EM_T Fc 1) as [E1|E1]; [|nra]. unfold nppf in Er. rewrite H6, H1 in Er.
      rewrite interp_in in Er; [|destruct cdf; [cbn in H9; lra|discriminate]|rewrite H8, H9, E1; lra]. injection Er as Er.
      rewrite interp_beyond in Er; [|exact H7|exact H10|destruct cdf; [cbn in H9; lra|discriminate]|rewrite H9, E1; lra].
      rewrite <- last_of_eq in Er. fold c in H3. lra.
  - exists (c - pl), (pr - c). unfold nerror_left, nerror_right. fold cl. rewrite El', Er'. cbn [bind]. split; [reflexivity|]. split; [reflexivity|].
    replace (c - (c - pl)) with pl by ring. replace (c + (pr - c)) with pr by ring. auto.
  - unfold nerror_left, nerror_right. fold cl. rewrite HF by exact H3. cbn [bind]. fold c. fold F. fold Fc. rewrite El, Er. auto.
Qed.
Print Assumptions C85_error_ranges.

(** ** C86: combination of tables: the product of the densities on the common support *)
Theorem C86_combination l lo hi i : (forall d, In d l -> is_numerical d) -> common_support l lo hi -> lo < hi ->
  (i < 999)%nat -> (forall d, In d l -> 0 < density d (grid_point lo hi 1000 i)) ->
  exists r K, combine_tables l = Ok r /\ is_numerical r /\ nsupport r = (lo, hi) /\ 0 < K /\
    (forall j, (j < 1000)%nat -> density r (grid_point lo hi 1000 j) = K * product (map (fun d => density d (grid_point lo hi 1000 j)) l)).
Proof. intros Hl Hs Hlt Hi Hp. apply (combine_n 1000 l lo hi i); auto; lia. Qed.
Print Assumptions C86_combination.
Theorem C86_no_overlap l lo hi : common_support l lo hi -> hi <= lo -> combine_tables l = Err ValueError.
Proof. apply combine_no_overlap. Qed.
Print Assumptions C86_no_overlap.
Theorem C86_common_support_exists l : l <> [] -> exists lo hi, common_support l lo hi.
Proof. apply common_support_ex. Qed.
Print Assumptions C86_common_support_exists.
(** [combine] calls it when all distributions are tables *)
Theorem C86_combine_distributions gamma_ppf gamma_cdf gamma_logpdf l : (2 <= length l)%nat ->
  combine ncentral (from_pd gamma_ppf gamma_cdf gamma_logpdf) combine_tables (map (@Numerical numdist) l) =
  (do n <- combine_tables l; Ok (Numerical n)).
Proof.
  intro Hl. assert (F1 : forall l : list numdist, filter (@is_delta numdist) (map Numerical l) = []) by (induction l0; [reflexivity|exact IHl0]).
  assert (F2 : forall l : list numdist, filter (@is_normal numdist) (map Numerical l) = []) by (induction l0; [reflexivity|exact IHl0]).
  assert (F3 : forall l : list numdist, filter (@is_other numdist) (map Numerical l) = map Numerical l)
    by (induction l0; [reflexivity|cbn [map filter is_other is_normal is_delta negb andb]; rewrite IHl0; reflexivity]).
  assert (F4 : forall l, mapM (from_pd gamma_ppf gamma_cdf gamma_logpdf) (map (@Numerical numdist) l) = Ok l).
  { intro l0. induction l0 as [|a l0 IH]; [reflexivity|]. cbn [map mapM from_pd from_pd_n bind]. unfold from_pd in *. cbn [from_pd_n bind]. rewrite IH. reflexivity. }
  unfold combine. rewrite F1, F2, F3. destruct l as [|a [|b l]]; cbn in Hl; try lia. cbn [map]. cbn [bind]. rewrite app_nil_r.
  change (Numerical a :: Numerical b :: map Numerical l) with (map (@Numerical numdist) (a :: b :: l)). rewrite F4. reflexivity.
Qed.
Print Assumptions C86_combine_distributions.

(** ** C87: convolution of two tables.  The entry at position [g k] of the result is the sum of the
    probabilities of all pairs of values of the two distributions on the grid whose sum (of deviations
    from the central values, added to the new central value) lies in the grid interval ending at [g k]. *)
Theorem C87_convolution (same : bool) d1 d2 c : is_numerical d1 -> is_numerical d2 ->
  (if same then ncentral d1 = c /\ ncentral d2 = c else c = ncentral d1 + ncentral d2) ->
  let n := 10000%nat in
  let lo := c + (fst (nsupport d1) - ncentral d1) + (fst (nsupport d2) - ncentral d2) in
  let hi := c + (snd (nsupport d1) - ncentral d1) + (snd (nsupport d2) - ncentral d2) in
  let delta := (hi - lo) / INR (n - 1) in
  let g := grid_point lo hi n in
  lo < hi /\ lo <= c <= hi /\
  exists r, convolve_tables same [d1; d2] = Ok r /\ nsupport r = (lo, hi) /\ ncentral r = c /\ length (nx r) = n /\ length (ny r) = n /\
    (forall k, (k < n)%nat -> nth k (nx r) 0 = g k) /\
    forall k, (k < n)%nat ->
      nth k (ny r) 0 = total (map (fun p =>
        let u := g (fst p) - c + ncentral d1 in let v := g (snd p) - c + ncentral d2 in
        if_in_bin ((u - ncentral d1) + (v - ncentral d2) + c) (g k) delta (density d1 u * delta * (density d2 v * delta)))
        (list_prod (seq 0 n) (seq 0 n))).
Proof. intros N1 N2 Hc. apply convolve_two; auto. apply Nat.leb_le. vm_compute. reflexivity. Qed.
Print Assumptions C87_convolution.
(** different central values are rejected if they have to be the same *)
Theorem C87_different_centres d1 d2 : ncentral d1 <> ncentral d2 -> convolve_tables true [d1; d2] = Err AssertionError.
Proof.
  intro Hne. unfold convolve_tables, convolve_tables_n. cbn [forallb]. unfold req.
  destruct (Req_EM_T (ncentral d1) (ncentral d1)); [|congruence]. destruct (Req_EM_T (ncentral d2) (ncentral d1)); [congruence|reflexivity].
Qed.
Print Assumptions C87_different_centres.

(** ** C88: conversion to a table keeps central value, support and (at the grid points) the density up to normalisation *)
Theorem C88_conversion_to_table gamma_ppf gamma_cdf gamma_logpdf (d : dist numdist) lo hi i :
  support ncentral gamma_ppf gamma_cdf d = Some (lo, hi) -> lo < hi -> lo <= central ncentral d <= hi ->
  (i < 999)%nat -> dlogpdf gamma_cdf gamma_logpdf d (grid_point lo hi 1000 i) <> None ->
  exists r K, from_pd gamma_ppf gamma_cdf gamma_logpdf d = Ok r /\ is_numerical r /\ nsupport r = (lo, hi) /\ ncentral r = central ncentral d /\ 0 < K /\
    forall j, (j < 1000)%nat -> let t := grid_point lo hi 1000 j in
      density r t = K * match dlogpdf gamma_cdf gamma_logpdf d t with Some v => exp v | None => 0 end.
Proof.
  intros Hs Hlt Hc Hi Hp. unfold from_pd, from_pd_n. rewrite Hs.
  assert (Hn : (2 <= 1000)%nat) by (apply Nat.leb_le; vm_compute; reflexivity). assert (Hi' : (S i < 1000)%nat) by lia.
  generalize dependent 1000%nat. intros n Hp Hn Hi'. set (x := linspace lo hi n). set (f := fun t => exp_log (dlogpdf gamma_cdf gamma_logpdf d t)). set (y := map f x).
  assert (Hy : forall j, (j < n)%nat -> nth j y 0 = f (grid_point lo hi n j)).
  { intros j Hj. unfold y. rewrite (nth_indep _ 0 (f 0)) by (rewrite map_length; unfold x; rewrite linspace_length; exact Hj).
    rewrite (map_nth f). unfold x. rewrite linspace_nth by exact Hj. reflexivity. }
  assert (Hf : forall t, 0 <= f t). { intro t. unfold f, exp_log. destruct (dlogpdf gamma_cdf gamma_logpdf d t); [apply Rlt_le, exp_pos|lra]. }
  assert (Ht : table x y).
  { split; [unfold y; rewrite map_length; reflexivity|]. split; [apply linspace_sorted; assumption|]. split.
    - apply Forall_forall. intros v Hv. apply in_map_iff in Hv as (t & <- & _). apply Hf.
    - exists i. split; [unfold y; rewrite map_length; unfold x; rewrite linspace_length; exact Hi'|]. rewrite Hy by lia. unfold f, exp_log.
      destruct (dlogpdf _ _ _ _); [apply exp_pos|congruence]. }
  assert (Hends : first_of x = lo /\ last_of x = hi) by (unfold x; rewrite linspace_first, linspace_last by lia; auto). destruct Hends as [Hf0 Hl0].
  destruct (mk_numerical_spec x y (Some (central ncentral d)) Ht) as (r & cdf & E & H1 & H2 & H3 & H4 & H5 & H6 & _).
  { intros v Ev. injection Ev as <-. rewrite Hf0, Hl0. exact Hc. }
  exists r, (/ trapz x y). split; [destruct d; try exact E; discriminate|]. split; [exists x, y, (Some (central ncentral d)); auto|]. split.
  { unfold nsupport. rewrite H1, <- first_of_eq, <- last_of_eq, Hf0, Hl0. reflexivity. }
  split; [apply H3; reflexivity|]. split; [apply Rinv_0_lt_compat, H6|]. intros j Hj. set (t := grid_point lo hi n j).
  change (match dlogpdf gamma_cdf gamma_logpdf d t with Some v => exp v | None => 0 end) with (f t). unfold t. rewrite <- Hy by exact Hj.
  unfold density, npdf. rewrite H5, H1. destruct Ht as (Hlen & Hx & _).
  assert (Ex : grid_point lo hi n j = nth j x 0) by (unfold x; rewrite linspace_nth by exact Hj; reflexivity).
  rewrite Ex. assert (Hjx : (j < length x)%nat) by (unfold x; rewrite linspace_length; exact Hj). rewrite interp_in.
  - rewrite interp_nth; [|rewrite map_length; exact Hlen|exact Hx|exact Hjx].
    rewrite (nth_indep _ 0 (0 * / trapz x y)) by (rewrite map_length, <- Hlen; exact Hjx). rewrite (map_nth (fun v => v * / trapz x y)). ring.
  - intro Ex0. rewrite Ex0 in Hjx. cbn in Hjx. lia.
  - apply sorted_in_bounds; [apply sorted_lt_le, Hx|apply nth_In, Hjx].
Qed.
Print Assumptions C88_conversion_to_table.
Example C88_instance gamma_ppf gamma_cdf gamma_logpdf : exists r, from_pd gamma_ppf gamma_cdf gamma_logpdf (Normal 1 2) = Ok r /\ is_numerical r /\ nsupport r = (-11, 13).
Proof.
  destruct (C88_conversion_to_table gamma_ppf gamma_cdf gamma_logpdf (Normal 1 2) (-11) 13 0) as (r & K & E & H1 & H2 & _); try lia; try lra.
  - cbn. f_equal. f_equal; lra.
  - cbn. lra.
  - cbn. discriminate.
  - exists r. auto.
Qed.
(** so numerical distributions with a common support, and pairs to convolve, exist *)
Example C86_C87_instance : exists d1 d2, is_numerical d1 /\ is_numerical d2 /\ ncentral d1 = 1 /\ ncentral d2 = 1 /\
  common_support [d1; d2] (-5) 13 /\ (forall d, In d [d1; d2] -> 0 < density d (grid_point (-5) 13 1000 333)).
Proof.
  set (G3 := fun _ _ _ _ : R => 0). set (G3' := fun _ _ _ _ : R => @None R).
  destruct (C88_conversion_to_table G3 G3 G3' (Normal 1 2) (-11) 13 0) as (r & K & E & H1 & H2 & H3 & _); try lia; try lra;
    [cbn; f_equal; f_equal; lra|cbn; lra|cbn; discriminate|].
  assert (Ht : table [-5; 1; 13] [1; 1; 1]).
  { split; [reflexivity|]. split; [repeat (constructor; try lra)|]. split; [repeat (constructor; try lra)|]. exists 1%nat. cbn. split; [lia|lra]. }
  destruct (mk_numerical_spec _ _ (Some 1) Ht) as (d2 & cdf & E2 & Q1 & Q2 & Q3 & Q4 & Q5 & Q6 & _).
  { intros v Ev. injection Ev as <-. unfold first_of, last_of. cbn. lra. }
  assert (Ht1 : table [-11; -5; 13] [1; 1; 1]).
  { split; [reflexivity|]. split; [repeat (constructor; try lra)|]. split; [repeat (constructor; try lra)|]. exists 1%nat. cbn. split; [lia|lra]. }
  destruct (mk_numerical_spec _ _ (Some 1) Ht1) as (d1 & cdf1 & E1 & P1 & P2 & P3 & P4 & P5 & P6 & _).
  { intros v Ev. injection Ev as <-. unfold first_of, last_of. cbn. lra. }
  exists d1, d2. split; [exists [-11; -5; 13], [1; 1; 1], (Some 1); auto|]. split; [exists [-5; 1; 13], [1; 1; 1], (Some 1); auto|].
  split; [apply P3; reflexivity|]. split; [apply Q3; reflexivity|]. split.
  - unfold common_support, nsupport. repeat split.
    + intros d [<-|[<-|[]]]; cbn [fst]; rewrite ?P1, ?Q1; cbn; lra.
    + exists d2. split; [right; left; reflexivity|]. cbn [fst]. rewrite Q1. reflexivity.
    + intros d [<-|[<-|[]]]; cbn [snd]; rewrite ?P1, ?Q1; cbn; lra.
    + exists d2. split; [right; left; reflexivity|]. cbn [snd]. rewrite Q1. reflexivity.
  - assert (Eg : grid_point (-5) 13 1000 333 = 1).
    { unfold grid_point. replace (INR 333) with 333 by (rewrite INR_IZR_INZ; reflexivity). replace (INR (1000 - 1)) with 999 by (rewrite INR_IZR_INZ; reflexivity). field. }
    rewrite Eg.
    assert (Hpos1 : 0 < / trapz [-11; -5; 13] [1; 1; 1]) by (apply Rinv_0_lt_compat, P6).
    assert (Hpos2 : 0 < / trapz [-5; 1; 13] [1; 1; 1]) by (apply Rinv_0_lt_compat, Q6).
    intros d [<-|[<-|[]]]; unfold density, npdf.
    + rewrite P5, P1. set (K1 := / trapz _ _) in *. unfold interp. cbn [map last]. destruct (Rlt_dec 1 (-11)); [lra|]. destruct (Rlt_dec 13 1); [lra|].
      cbn [interp_from]. destruct (Rlt_dec 1 (-5)); [lra|]. destruct (Rlt_dec 1 13); [|lra]. unfold Rdiv. lra.
    + rewrite Q5, Q1. set (K1 := / trapz _ _) in *. unfold interp. cbn [map last]. destruct (Rlt_dec 1 (-5)); [lra|]. destruct (Rlt_dec 13 1); [lra|].
      cbn [interp_from]. destruct (Rlt_dec 1 1); [lra|]. destruct (Rlt_dec 1 13); [|lra]. unfold Rdiv. lra.
Qed.

(** ** C80 (fails): because of the inverted support, a log-normal distribution with negative central
    value can be neither combined nor convolved with any normal distribution. *)
Theorem C80_negative_lognormal_combination_refuted gamma_ppf gamma_cdf gamma_logpdf c f mu s :
  c < 0 -> 1 < f -> 0 < s ->
  mk_lognormal c f = Ok (@LogNormal numdist c f) /\ mk_normal mu s = Ok (@Normal numdist mu s) /\
  combine ncentral (from_pd gamma_ppf gamma_cdf gamma_logpdf) combine_tables [LogNormal c f; Normal mu s] = Err ValueError /\
  convolve ncentral (from_pd gamma_ppf gamma_cdf gamma_logpdf) convolve_tables Sum [LogNormal c f; Normal mu s] = Err ValueError.
Proof.
  intros Hc Hf Hs. split; [unfold mk_lognormal; destruct (Req_EM_T c 0); [lra|]; destruct (Rle_dec f 1); [lra|reflexivity]|].
  split; [unfold mk_normal; destruct (Rle_dec s 0); [lra|reflexivity]|].
  assert (E : from_pd gamma_ppf gamma_cdf gamma_logpdf (LogNormal c f) = Err ValueError).
  { unfold from_pd, from_pd_n. cbn [support]. destruct (Rlt_dec c 0); [|lra]. apply C45_central_outside.
    - intro E. apply (f_equal (@length R)) in E. rewrite linspace_length in E. discriminate.
    - left. rewrite linspace_first by lia. cbn [central]. pose proof (exp_pos (ln (Rabs c) - 6 * ln f)). lra. }
  split.
  - unfold combine. cbn [filter is_delta is_normal is_other negb andb combine_gaussians bind app mapM]. rewrite E. reflexivity.
  - unfold convolve, convolve_univariate. cbn [filter is_delta is_normal is_other negb andb convolve_gaussians bind app mapM]. rewrite E. reflexivity.
Qed.
Print Assumptions C80_negative_lognormal_combination_refuted.
