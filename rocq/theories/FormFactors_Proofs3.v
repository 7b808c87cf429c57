(** * Proofs about form factors: threshold, B -> V, baryons *)
From Coq Require Import Reals Lra Psatz.
From Verif Require Import Base BaseLemmas FormFactors_Model FormFactors_Spec FormFactors_Proofs FormFactors_Proofs2.
Local Open Scope R_scope.

(** ** threshold *)
Lemma pow_taylor k Z : -1 <= Z <= 1 -> Rabs (Z ^ k - (-1) ^ k + INR k * (-1) ^ k * (Z + 1)) <= INR k ^ 2 * (Z + 1) ^ 2.
Proof.
  intros B. assert (G : exists g, Z ^ k = (-1) ^ k - INR k * (-1) ^ k * (Z + 1) + (Z + 1) ^ 2 * g /\ Rabs g <= INR k ^ 2).
  { induction k as [| k (g & E & Hg)]; [exists 0; split; [cbn; ring | rewrite Rabs_R0; cbn; lra] |].
    exists (Z * g - INR k * (-1) ^ k). split; [cbn [pow]; rewrite E, S_INR; ring |].
    eapply Rle_trans; [apply Rabs_triang |]. rewrite Rabs_Ropp, !Rabs_mult. assert (E1 : Rabs ((-1) ^ k) = 1) by (rewrite <- RPow_abs; replace (Rabs (-1)) with 1 by (rewrite Rabs_left; lra); apply pow1).
    rewrite E1. rewrite (Rabs_right (INR k)) by (apply Rle_ge, pos_INR). assert (ZB : Rabs Z <= 1) by (apply Rabs_le; lra).
    pose proof (Rabs_pos g) as P1. pose proof (Rabs_pos Z) as P2. pose proof (pos_INR k) as P3. rewrite S_INR. nra. }
  destruct G as (g & E & Hg). replace (_ + _) with ((Z + 1) ^ 2 * g) by (rewrite E; ring).
  rewrite Rabs_mult. rewrite (Rabs_right ((Z + 1) ^ 2)) by (apply Rle_ge, pow2_ge_0). rewrite Rmult_comm. apply Rmult_le_compat_r; [apply pow2_ge_0 | exact Hg].
Qed.
Lemma m1_sq k : (-1) ^ k * (-1) ^ k = 1.
Proof. rewrite <- Rpow_mult_distr. replace (-1 * -1) with 1 by ring. apply pow1. Qed.
Lemma term_bound n k : (0 < n)%nat -> (k <= n)%nat -> exists K, forall Z, -1 <= Z <= 1 ->
  Rabs ((Z ^ k - (-1) ^ (n - k) * INR k / INR n * Z ^ n) - ((-1) ^ k - (-1) ^ (n - k) * INR k / INR n * (-1) ^ n)) <= K * (Z + 1) ^ 2.
Proof.
  intros N L. assert (N0 : INR n <> 0) by (apply not_0_INR; lia). set (c := (-1) ^ (n - k) * INR k / INR n).
  exists (INR k ^ 2 + Rabs c * INR n ^ 2). intros Z B. pose proof (pow_taylor k Z B) as Hk. pose proof (pow_taylor n Z B) as Hn.
  assert (E : c * INR n * (-1) ^ n = INR k * (-1) ^ k).
  { unfold c. replace n with ((n - k) + k)%nat at 4 by lia. rewrite pow_add. unfold Rdiv. replace ((-1) ^ (n - k) * INR k * / INR n * INR n * ((-1) ^ (n - k) * (-1) ^ k)) with (((-1) ^ (n - k) * (-1) ^ (n - k)) * (INR n * / INR n) * (INR k * (-1) ^ k)) by ring. rewrite m1_sq, Rinv_r by exact N0. ring. }
  replace (_ - _) with ((Z ^ k - (-1) ^ k + INR k * (-1) ^ k * (Z + 1)) - c * (Z ^ n - (-1) ^ n + INR n * (-1) ^ n * (Z + 1))).
  2:{ replace (c * (Z ^ n - (-1) ^ n + INR n * (-1) ^ n * (Z + 1))) with (c * (Z ^ n - (-1) ^ n) + (c * INR n * (-1) ^ n) * (Z + 1)) by ring. rewrite E. ring. }
  eapply Rle_trans; [apply Rabs_triang |]. rewrite Rabs_Ropp, Rabs_mult. pose proof (Rabs_pos c). rewrite Rmult_plus_distr_r. apply Rplus_le_compat; [exact Hk |]. rewrite (Rmult_assoc (Rabs c)). apply Rmult_le_compat_l; assumption.
Qed.
Lemma sum_bound (g : nat -> R -> R) ks : (forall k, In k ks -> exists K, forall Z, -1 <= Z <= 1 -> Rabs (g k Z - g k (-1)) <= K * (Z + 1) ^ 2) ->
  forall l, exists K, forall Z, -1 <= Z <= 1 -> Rabs (rsum_ (zipmul l (map (fun k => g k Z) ks)) - rsum_ (zipmul l (map (fun k => g k (-1)) ks))) <= K * (Z + 1) ^ 2.
Proof.
  induction ks as [| k ks IH]; intros H l.
  - exists 0. intros Z _. destruct l; cbn [map zipmul rsum_]; rewrite Rminus_0_r, Rabs_R0; lra.
  - destruct l as [| a l]; [exists 0; intros Z _; cbn [map zipmul rsum_]; rewrite Rminus_0_r, Rabs_R0; lra |].
    destruct (H k (or_introl eq_refl)) as (K1 & H1). destruct (IH (fun k' i => H k' (or_intror i)) l) as (K2 & H2).
    exists (Rabs a * K1 + K2). intros Z B. cbn [map zipmul rsum_]. specialize (H1 Z B). specialize (H2 Z B).
    replace (_ - _) with (a * (g k Z - g k (-1)) + (rsum_ (zipmul l (map (fun k => g k Z) ks)) - rsum_ (zipmul l (map (fun k => g k (-1)) ks)))) by ring.
    eapply Rle_trans; [apply Rabs_triang |]. rewrite Rabs_mult, Rmult_plus_distr_r. apply Rplus_le_compat; [| exact H2]. rewrite (Rmult_assoc (Rabs a)). apply Rmult_le_compat_l; [apply Rabs_pos | exact H1].
Qed.
Lemma fplusT_bound a : exists K, forall Z, -1 <= Z <= 1 -> Rabs (sum_fplusT a Z - sum_fplusT a (-1)) <= K * (Z + 1) ^ 2.
Proof.
  unfold sum_fplusT. set (n := length a).
  apply (sum_bound (fun k Z => Z ^ k - (-1) ^ (n - k) * INR k / INR n * Z ^ n)). intros k I. apply in_seq in I. apply term_bound; lia.
Qed.
Lemma lmvd_bound b Z0 : exists K, forall Z, -1 <= Z <= 1 -> Rabs (lmvd_fplusT b Z Z0 - lmvd_fplusT b (-1) Z0) <= K * (Z + 1) ^ 2.
Proof.
  unfold lmvd_fplusT. set (n := length b).
  destruct (sum_bound (fun k Z => Z ^ k - Z0 ^ k - (-1) ^ (n - k) * INR k / INR n * (Z ^ n - Z0 ^ n)) (seq 1 (n - 1))) with (l := tl b) as (K & H).
  { intros k I. apply in_seq in I. destruct (term_bound n k) as (K & H); [lia | lia |]. exists K. intros Z B. specialize (H Z B). eapply Rle_trans; [| exact H]. right. f_equal. ring. }
  exists (Rabs (hd 0 b) * K). intros Z B. specialize (H Z B).
  match goal with |- Rabs (?h * (1 + ?x) - ?h * (1 + ?y)) <= _ => replace (h * (1 + x) - h * (1 + y)) with (h * (x - y)) by ring end.
  rewrite Rabs_mult, (Rmult_assoc (Rabs (hd 0 b))). apply Rmult_le_compat_l; [apply Rabs_pos | exact H].
Qed.
Lemma z_threshold mB mM q2 t0 Z : 0 < mB -> 0 < mM -> match t0 with T0val t => t < t_plus mB mM | _ => True end -> z mB mM q2 t0 = Ok Z ->
  -1 <= Z <= 1 /\ (Z + 1) ^ 2 <= 4 / (t_plus mB mM - t_zero mB mM t0) * (t_plus mB mM - q2) /\ 0 <= t_plus mB mM - q2.
Proof.
  intros B M T E. pose proof (t_lt mB mM B M t0 T) as L. destruct (Rle_or_lt q2 (t_plus mB mM)) as [U | U]; [| rewrite z_err in E by assumption; discriminate E].
  rewrite z_is in E by assumption. injection E as <-. pose proof (zval_range mB mM q2 t0 L) as ((R1 & R2) & _). split; [lra |]. split; [| lra].
  unfold zval. pose proof (st_pos mB mM t0 L) as P. set (t := sqrt (t_plus mB mM - t_zero mB mM t0)) in *. set (s := sqrt (t_plus mB mM - q2)) in *. assert (S0 : 0 <= s) by apply sqrt_pos.
  replace (t_plus mB mM - t_zero mB mM t0) with (t ^ 2) by (unfold t; rewrite pow2_sqrt; lra).
  replace (4 / t ^ 2 * (t_plus mB mM - q2)) with ((2 * s / t) ^ 2). 2:{ replace (t_plus mB mM - q2) with (s ^ 2) by (unfold s; rewrite pow2_sqrt; lra). field. lra. }
  replace ((s - t) / (s + t) + 1) with (2 * s / (s + t)) by (field; lra). apply pow_incr. split.
  - apply Rmult_le_pos; [lra | left; apply Rinv_0_lt_compat; lra].
  - unfold Rdiv. apply Rmult_le_compat_l; [lra |]. apply Rinv_le_contravar; lra.
Qed.
(** combination: a function of z with the bound gives the bound in q2 *)
Lemma threshold_of (F : R -> R) K mB mM t0 : 0 < mB -> 0 < mM -> match t0 with T0val t => t < t_plus mB mM | _ => True end ->
  (forall Z, -1 <= Z <= 1 -> Rabs (F Z - F (-1)) <= K * (Z + 1) ^ 2) ->
  exists K', 0 <= K' /\ forall q2 Z, z mB mM q2 t0 = Ok Z -> Rabs (F Z - F (-1)) <= K' * (t_plus mB mM - q2).
Proof.
  intros B M T H. pose proof (t_lt mB mM B M t0 T) as L. assert (K0 : 0 <= K). { specialize (H 0 ltac:(lra)). pose proof (Rabs_pos (F 0 - F (-1))). nra. }
  assert (D : 0 < 4 / (t_plus mB mM - t_zero mB mM t0)) by (apply Rmult_lt_0_compat; [lra | apply Rinv_0_lt_compat; lra]).
  exists (K * (4 / (t_plus mB mM - t_zero mB mM t0))). split; [apply Rmult_le_pos; lra |]. intros q2 Z E. destruct (z_threshold mB mM q2 t0 Z B M T E) as (R1 & R2 & _). specialize (H Z R1).
  eapply Rle_trans; [exact H |]. rewrite (Rmult_assoc K). apply Rmult_le_compat_l; assumption.
Qed.
Lemma no_pole_is m q2 q v : poleP m q2 = Ok q -> no_pole m q2 (q * v) = v.
Proof.
  unfold poleP, no_pole. destruct (Req_EM_T m 0) as [e | e]; intros H; [injection H as <-; ring |]. bi H x Ex. apply pdiv_ok in Ex as (N & ->). apply pdiv_ok in H as (N2 & ->). field. split; [exact e |].
  intros X. apply N2. replace (1 - q2 / m ^ 2) with ((m ^ 2 - q2) / m ^ 2) by (field; exact e). replace (m ^ 2 - q2) with 0 by lra. unfold Rdiv. ring.
Qed.
Lemma no_pole_scal m q2 c v : no_pole m q2 (c * v) = c * no_pole m q2 v.
Proof. unfold no_pole. destruct (Req_EM_T m 0); ring. Qed.
Lemma combine_bound (F : R -> R) mB mM t0 c : 0 < mB -> 0 < mM -> match t0 with T0val t => t < t_plus mB mM | _ => True end ->
  (exists K, forall Z, -1 <= Z <= 1 -> Rabs (F Z - F (-1)) <= K * (Z + 1) ^ 2) ->
  exists K', 0 <= K' /\ forall q2 Z, z mB mM q2 t0 = Ok Z -> Rabs (c * F Z - c * F (-1)) <= K' * (t_plus mB mM - q2).
Proof.
  intros B M T (K & H). destruct (threshold_of F K mB mM t0 B M T H) as (K' & K0 & H'). exists (Rabs c * K'). split; [apply Rmult_le_pos; [apply Rabs_pos | exact K0] |].
  intros q2 Z E. replace (c * F Z - c * F (-1)) with (c * (F Z - F (-1))) by ring. rewrite Rabs_mult, (Rmult_assoc (Rabs c)). apply Rmult_le_compat_l; [apply Rabs_pos | now apply H' with (1 := E)].
Qed.

(** no square-root behaviour: what is claimed of one implementation *)
Definition regular_at (tp : R) (g : R -> result (od string R)) (mres : R) : Prop :=
  exists K (L : string -> R), forall q2 ff i, g q2 = Ok ff -> (i = "f+" \/ i = "fT")%string -> exists v, od_get i ff = Some v /\ Rabs (no_pole mres q2 v - L i) <= K * (tp - q2) /\ q2 <= tp.

Lemma two_bounds mB mM t0 (F1 F2 : R -> R) c1 c2 : 0 < mB -> 0 < mM -> match t0 with T0val t => t < t_plus mB mM | _ => True end ->
  (exists K, forall Z, -1 <= Z <= 1 -> Rabs (F1 Z - F1 (-1)) <= K * (Z + 1) ^ 2) -> (exists K, forall Z, -1 <= Z <= 1 -> Rabs (F2 Z - F2 (-1)) <= K * (Z + 1) ^ 2) ->
  exists K, forall q2 Z, z mB mM q2 t0 = Ok Z -> Rabs (c1 * F1 Z - c1 * F1 (-1)) <= K * (t_plus mB mM - q2) /\ Rabs (c2 * F2 Z - c2 * F2 (-1)) <= K * (t_plus mB mM - q2) /\ q2 <= t_plus mB mM.
Proof.
  intros B M T H1 H2. destruct (combine_bound F1 mB mM t0 c1 B M T H1) as (K1 & P1 & G1). destruct (combine_bound F2 mB mM t0 c2 B M T H2) as (K2 & P2 & G2).
  exists (K1 + K2). intros q2 Z E. specialize (G1 q2 Z E). specialize (G2 q2 Z E). destruct (z_threshold mB mM q2 t0 Z B M T E) as (_ & _ & U). repeat split; [nra | nra | lra].
Qed.
Section Thr.
  Variables (p : string) (par : params) (t0 : t0arg) (n : nat) (mB mM mres : R).
  Hypotheses (B : 0 < mB) (M : 0 < mM) (T : match t0 with T0val t => t < t_plus mB mM | _ => True end).
  Lemma reg_of (g : R -> result (od string R)) (F1 F2 : R -> R) c1 c2 :
    (exists K, forall Z, -1 <= Z <= 1 -> Rabs (F1 Z - F1 (-1)) <= K * (Z + 1) ^ 2) -> (exists K, forall Z, -1 <= Z <= 1 -> Rabs (F2 Z - F2 (-1)) <= K * (Z + 1) ^ 2) ->
    (forall q2 ff, g q2 = Ok ff -> exists q Z, poleP mres q2 = Ok q /\ z mB mM q2 t0 = Ok Z /\ od_get "f+"%string ff = Some (q * (c1 * F1 Z)) /\ od_get "fT"%string ff = Some (q * (c2 * F2 Z))) ->
    regular_at (t_plus mB mM) g mres.
  Proof using B M T.
    intros H1 H2 G. destruct (two_bounds mB mM t0 F1 F2 c1 c2 B M T H1 H2) as (K & HK). exists K, (fun i => if String.eqb i "f+" then c1 * F1 (-1) else c2 * F2 (-1)).
    intros q2 ff i E I. destruct (G q2 ff E) as (q & Z & Eq & Ez & E1 & E2). destruct (HK q2 Z Ez) as (K1 & K2 & K3). destruct I as [-> | ->]; cbn [String.eqb].
    - exists (q * (c1 * F1 Z)). rewrite (no_pole_is _ _ _ _ Eq). auto.
    - exists (q * (c2 * F2 Z)). rewrite (no_pole_is _ _ _ _ Eq). auto.
  Qed.
End Thr.
Lemma look_det par k a b : look par k = Ok a -> look par k = Ok b -> a = b.
Proof. intros -> [= ->]. reflexivity. Qed.
Ltac same E1 E2 := let Q := fresh in pose proof (look_det _ _ _ _ E1 E2) as Q; match type of Q with _ = ?b => subst b end.

Lemma regular_err tp g m : (forall q2 ff, g q2 = Ok ff -> False) -> regular_at tp g m.
Proof. intros H. exists 0, (fun _ => 0). intros q2 ff i E. destruct (H q2 ff E). Qed.
Lemma reg_bcl p par n t0 pd mB mP mres : bcl_process p = Some pd -> look par ("m_" ++ fst pd) = Ok mB -> look par ("m_" ++ snd pd) = Ok mP -> look par (p ++ " BCL m+") = Ok mres ->
  0 < mB -> 0 < mP -> match t0 with T0val t => t < t_plus mB mP | _ => True end -> regular_at (t_plus mB mP) (fun q2 => bcl_ff p q2 par n t0) mres.
Proof.
  intros Pd LB LP LR B M T. destruct (coeffs par (p ++ " BCL") "f+" (seq 0 n)) as [ap | e] eqn:Eap.
  2:{ apply regular_err. intros q2 ff H. unfold bcl_ff in H. do 5 inv H. rewrite Eap in H. discriminate H. }
  destruct (coeffs par (p ++ " BCL") "fT" (seq 0 n)) as [aT | e] eqn:EaT.
  2:{ apply regular_err. intros q2 ff H. unfold bcl_ff in H. do 5 inv H. rewrite Eap in H. cbn [bind] in H. rewrite EaT in H. discriminate H. }
  set (chL := match od_get (p ++ " BCL chL")%string par with Some v => v | None => 1 end).
  apply (reg_of t0 mB mP mres B M T _ (sum_fplusT ap) (sum_fplusT aT) chL chL); [apply fplusT_bound | apply fplusT_bound |].
  intros q2 ff H. unfold bcl_ff in H. rewrite LR in H. cbn [bind] in H. unfold lookd in H. rewrite Pd in H. cbn [bind] in H. bi H m0 Em0. rewrite LB, LP, Eap, EaT in H. cbn [bind] in H. bi H a0 Ea0. bi H q Eq. bi H f1 Ef1. bi H f2 Ef2. bi H q3 Eq3. bi H f3 Ef3. injection H as <-.
  unfold param_fplusT in *. bi Ef1 Z Ez. rewrite Ez in Ef2. cbn [bind] in Ef2. injection Ef1 as <-. injection Ef2 as <-. exists q, Z. refine (conj Eq (conj Ez (conj _ _))).
  - fold chL. change (Some (chL * q * sum_fplusT ap Z) = Some (q * (chL * sum_fplusT ap Z))). f_equal. ring.
  - fold chL. change (Some (chL * q * sum_fplusT aT Z) = Some (q * (chL * sum_fplusT aT Z))). f_equal. ring.
Qed.
Lemma reg_iw p par n t0 pd mB mP mres : bcl_process p = Some pd -> look par ("m_" ++ fst pd) = Ok mB -> look par ("m_" ++ snd pd) = Ok mP -> look par (p ++ " BCL m+") = Ok mres ->
  0 < mB -> 0 < mP -> match t0 with T0val t => t < t_plus mB mP | _ => True end -> regular_at (t_plus mB mP) (fun q2 => bcl_ff_isgurwise p q2 par n t0) mres.
Proof.
  intros Pd LB LP LR B M T. destruct (coeffs par (p ++ " BCL") "f+" (seq 0 n)) as [ap | e] eqn:Eap.
  2:{ apply regular_err. intros q2 ff H. unfold bcl_ff_isgurwise in H. do 5 inv H. rewrite Eap in H. discriminate H. }
  destruct (look par (p ++ " IW a_T")) as [aT | e] eqn:EaT.
  2:{ apply regular_err. intros q2 ff H. unfold bcl_ff_isgurwise in H. do 17 inv H. unfold isgur_wise in H. do 3 inv H. rewrite EaT in H. discriminate H. }
  apply (reg_of t0 mB mP mres B M T _ (sum_fplusT ap) (sum_fplusT ap) 1 (1 + aT)); [apply fplusT_bound | apply fplusT_bound |].
  intros q2 ff H. unfold bcl_ff_isgurwise in H. rewrite LR in H. cbn [bind] in H. unfold lookd in H at 1. rewrite Pd in H. cbn [bind] in H. bi H m0 Em0. rewrite LB, LP, Eap in H. cbn [bind] in H. bi H a0 Ea0. bi H p1 Ep1. bi H s1 Es1. bi H p2 Ep2. bi H s2 Es2. bi H z0 Ez0. bi H an Ean. bi H q Eq. bi H f1 Ef1. bi H q3 Eq3. bi H f3 Ef3.
  unfold isgur_wise in H. unfold lookd in H. rewrite Pd in H. cbn [bind] in H. rewrite LB, LP, EaT in H. cbn [bind] in H. bi H fp Efp. injection Efp as <-. injection H as <-.
  unfold param_fplusT in *. bi Ef1 Z Ez. injection Ef1 as <-. exists q, Z. refine (conj Eq (conj Ez (conj _ _))).
  - change (Some (q * sum_fplusT ap Z) = Some (q * (1 * sum_fplusT ap Z))). f_equal. ring.
  - change (Some (q * sum_fplusT ap Z * (1 + aT)) = Some (q * ((1 + aT) * sum_fplusT ap Z))). f_equal. ring.
Qed.
Lemma reg_d p par n t0 pd mB mP mres : d_process p = Some pd -> look par ("m_" ++ fst pd) = Ok mB -> look par ("m_" ++ snd pd) = Ok mP -> look par (p ++ " BCL m+") = Ok mres ->
  0 < mB -> 0 < mP -> match t0 with T0val t => t < t_plus mB mP | _ => True end -> regular_at (t_plus mB mP) (fun q2 => d_bcl_ff p q2 par n t0) mres.
Proof.
  intros Pd LB LP LR B M T. destruct (coeffs par (p ++ " BCL") "f+" (seq 0 n)) as [ap | e] eqn:Eap.
  2:{ apply regular_err. intros q2 ff H. unfold d_bcl_ff in H. do 5 inv H. rewrite Eap in H. discriminate H. }
  destruct (coeffs par (p ++ " BCL") "fT" (seq 0 n)) as [aT | e] eqn:EaT.
  2:{ apply regular_err. intros q2 ff H. unfold d_bcl_ff in H. do 5 inv H. rewrite Eap in H. cbn [bind] in H. rewrite EaT in H. discriminate H. }
  apply (reg_of t0 mB mP mres B M T _ (sum_fplusT ap) (sum_fplusT aT) 1 1); [apply fplusT_bound | apply fplusT_bound |].
  intros q2 ff H. unfold d_bcl_ff in H. rewrite LR in H. cbn [bind] in H. unfold lookd in H. rewrite Pd in H. cbn [bind] in H. bi H m0 Em0. rewrite LB, LP, Eap, EaT in H. cbn [bind] in H. bi H a0 Ea0. bi H p1 Ep1. bi H s1 Es1. bi H p2 Ep2. bi H s2 Es2. bi H z0 Ez0. bi H an Ean. bi H q Eq. bi H f1 Ef1. bi H f2 Ef2. bi H q3 Eq3. bi H f3 Ef3. injection H as <-.
  unfold param_fplusT in Ef1, Ef2. bi Ef1 Z Ez. rewrite Ez in Ef2. cbn [bind] in Ef2. injection Ef1 as <-. injection Ef2 as <-. exists q, Z. refine (conj Eq (conj Ez (conj _ _))).
  - change (Some (q * sum_fplusT ap Z) = Some (q * (1 * sum_fplusT ap Z))). f_equal. ring.
  - change (Some (q * sum_fplusT aT Z) = Some (q * (1 * sum_fplusT aT Z))). f_equal. ring.
Qed.
Lemma reg_lmvd par n t0 mB mP mres : look par "B->pi BCL LMVD m_B+" = Ok mB -> look par "B->pi BCL LMVD m_pi0" = Ok mP -> look par "B->pi BCL LMVD m+" = Ok mres ->
  0 < mB -> 0 < mP -> match t0 with T0val t => t < t_plus mB mP | _ => True end -> regular_at (t_plus mB mP) (fun q2 => lmvd_ff "B->pi" q2 par n t0) mres.
Proof.
  intros LB LP LR B M T.
  assert (Inv : forall q2 ff, lmvd_ff "B->pi" q2 par n t0 = Ok ff -> exists bp0 bp bT0 bT Z z0 q,
    (look par "B->pi BCL f_+(0)" = Ok bp0 /\ mapM (fun j => look par ("B->pi" ++ " BCL b_+^" ++ dig j)%string) (seq 1 (n - 1)) = Ok bp /\
     look par "B->pi BCL f_T(0)" = Ok bT0 /\ mapM (fun j => look par ("B->pi" ++ " BCL b_T^" ++ dig j)%string) (seq 1 (n - 1)) = Ok bT /\ z mB mP 0 t0 = Ok z0) /\
    z mB mP q2 t0 = Ok Z /\ poleP mres q2 = Ok q /\ od_get "f+"%string ff = Some (q * lmvd_fplusT (bp0 :: bp) Z z0) /\ od_get "fT"%string ff = Some (q * lmvd_fplusT (bT0 :: bT) Z z0)).
  { intros q2 ff H. unfold lmvd_ff in H. bi H pd Epd. change (lookd lmvd_process "B->pi") with (Ok ("B+", "pi0")%string : result (string * string)) in Epd. injection Epd as <-.
    bi H mpl Empl. bi H m0 Em0. bi H mB' EmB. bi H mP' EmP. bi H bp0 Ebp0. bi H bp Ebp. bi H bT0 EbT0. bi H bT EbT. bi H zq Ezq. bi H z0 Ez0. bi H q1 Eq1. bi H b0 Eb0. bi H q3 Eq3. injection H as <-.
    assert (X1 : mB' = mB) by exact (look_det _ _ _ _ EmB LB). assert (X2 : mP' = mP) by exact (look_det _ _ _ _ EmP LP). assert (X3 : mpl = mres) by exact (look_det _ _ _ _ Empl LR). subst.
    exists bp0, bp, bT0, bT, zq, z0, q1. refine (conj (conj Ebp0 (conj Ebp (conj EbT0 (conj EbT Ez0)))) (conj Ezq (conj Eq1 (conj eq_refl eq_refl)))). }
  destruct (look par "B->pi BCL f_+(0)") as [bp0 | e1] eqn:E1; [| apply regular_err; intros q2 ff H; destruct (Inv q2 ff H) as (x1 & x2 & x3 & x4 & x5 & x6 & x7 & (Y & _) & _); discriminate Y].
  destruct (mapM (fun j => look par ("B->pi" ++ " BCL b_+^" ++ dig j)%string) (seq 1 (n - 1))) as [bp | e2] eqn:E2; [| apply regular_err; intros q2 ff H; destruct (Inv q2 ff H) as (x1 & x2 & x3 & x4 & x5 & x6 & x7 & (_ & Y & _) & _); discriminate Y].
  destruct (look par "B->pi BCL f_T(0)") as [bT0 | e3] eqn:E3; [| apply regular_err; intros q2 ff H; destruct (Inv q2 ff H) as (x1 & x2 & x3 & x4 & x5 & x6 & x7 & (_ & _ & Y & _) & _); discriminate Y].
  destruct (mapM (fun j => look par ("B->pi" ++ " BCL b_T^" ++ dig j)%string) (seq 1 (n - 1))) as [bT | e4] eqn:E4; [| apply regular_err; intros q2 ff H; destruct (Inv q2 ff H) as (x1 & x2 & x3 & x4 & x5 & x6 & x7 & (_ & _ & _ & Y & _) & _); discriminate Y].
  destruct (z mB mP 0 t0) as [z0 | e5] eqn:E5; [| apply regular_err; intros q2 ff H; destruct (Inv q2 ff H) as (x1 & x2 & x3 & x4 & x5 & x6 & x7 & (_ & _ & _ & _ & Y) & _); discriminate Y].
  apply (reg_of t0 mB mP mres B M T _ (fun Z => lmvd_fplusT (bp0 :: bp) Z z0) (fun Z => lmvd_fplusT (bT0 :: bT) Z z0) 1 1); [apply lmvd_bound | apply lmvd_bound |].
  intros q2 ff H. destruct (Inv q2 ff H) as (x1 & x2 & x3 & x4 & Z & x6 & q & (Y1 & Y2 & Y3 & Y4 & Y5) & Ez & Eq & F1 & F2).
  injection Y1 as <-. injection Y2 as <-. injection Y3 as <-. injection Y4 as <-. injection Y5 as <-. exists q, Z. rewrite !Rmult_1_l. auto.
Qed.
