(** * Proofs about form factors *)
From Coq Require Import Reals Lra Psatz.
From Verif Require Import Base BaseLemmas FormFactors_Model FormFactors_Spec.
Local Open Scope R_scope.

Lemma bind_ok {A B} (r : result A) (f : A -> result B) b : bind r f = Ok b -> exists a, r = Ok a /\ f a = Ok b.
Proof. destruct r; cbn [bind]; intros H; [eauto | discriminate H]. Qed.
Ltac inv H := let a := fresh "v" in let E := fresh "E" in apply bind_ok in H; destruct H as (a & E & H); cbv beta iota in H.
Ltac invs H := repeat inv H.

Lemma pdiv_ok x y v : pdiv x y = Ok v -> y <> 0 /\ v = x / y.
Proof. unfold pdiv. destruct (Req_EM_T y 0); intros H; [discriminate H | injection H as <-; auto]. Qed.
Lemma pdiv_is x y : y <> 0 -> pdiv x y = Ok (x / y).
Proof. intros. unfold pdiv. destruct (Req_EM_T y 0); [contradiction | reflexivity]. Qed.
Lemma psqrt_ok x v : psqrt x = Ok v -> 0 <= x /\ v = sqrt x.
Proof. unfold psqrt. destruct (Rlt_dec x 0); intros H; [discriminate H | injection H as <-; split; [lra | reflexivity]]. Qed.
Lemma psqrt_is x : 0 <= x -> psqrt x = Ok (sqrt x).
Proof. intros. unfold psqrt. destruct (Rlt_dec x 0); [lra | reflexivity]. Qed.

(** ** z *)
Section Zvar.
  Variables mB mM : R.
  Hypothesis B : 0 < mB. Hypothesis M : 0 < mM.
  Lemma tp_pos : 0 < t_plus mB mM. Proof using B M. unfold t_plus. apply pow_lt. lra. Qed.
  Lemma tm_lt : t_minus mB mM < t_plus mB mM. Proof using B M. unfold t_minus, t_plus. nra. Qed.
  Lemma tm_nonneg : 0 <= t_minus mB mM. Proof using. apply pow2_ge_0. Qed.
  Lemma def_t0 : exists x s, pdiv (t_minus mB mM) (t_plus mB mM) = Ok x /\ psqrt (1 - x) = Ok s /\ t_plus mB mM * (1 - s) = t_zero mB mM T0none.
  Proof using B M.
    pose proof tp_pos as P. pose proof tm_lt as L. pose proof tm_nonneg as N.
    exists (t_minus mB mM / t_plus mB mM), (sqrt (1 - t_minus mB mM / t_plus mB mM)).
    assert (E : 1 - t_minus mB mM / t_plus mB mM = (t_plus mB mM - t_minus mB mM) / t_plus mB mM) by (field; lra).
    assert (H : 0 <= (t_plus mB mM - t_minus mB mM) / t_plus mB mM) by (apply Rmult_le_pos; [lra | left; apply Rinv_0_lt_compat; lra]).
    split; [apply pdiv_is; lra |]. split; [apply psqrt_is; rewrite E; exact H |]. unfold t_zero. rewrite E.
    replace (t_plus mB mM * (t_plus mB mM - t_minus mB mM)) with (t_plus mB mM ^ 2 * ((t_plus mB mM - t_minus mB mM) / t_plus mB mM)) by (field; lra).
    rewrite sqrt_mult_alt by (apply pow2_ge_0). rewrite sqrt_pow2 by lra. ring.
  Qed.
  Lemma default_between : 0 <= t_zero mB mM T0none /\ t_zero mB mM T0none <= t_minus mB mM.
  Proof using B M.
    pose proof tp_pos as P. pose proof tm_lt as L. pose proof tm_nonneg as N. unfold t_zero.
    set (p := t_plus mB mM) in *. set (m := t_minus mB mM) in *. assert (0 <= p * (p - m)) by (apply Rmult_le_pos; lra). split.
    - assert (sqrt (p * (p - m)) <= p). { apply Rsqr_incr_0_var; [| lra]. rewrite Rsqr_sqrt by lra. unfold Rsqr. nra. } lra.
    - assert (p - m <= sqrt (p * (p - m))). { apply Rsqr_incr_0_var; [| apply sqrt_pos]. rewrite Rsqr_sqrt by lra. unfold Rsqr. nra. } lra.
  Qed.
  Lemma t_lt t0 : match t0 with T0val t => t < t_plus mB mM | _ => True end -> t_zero mB mM t0 < t_plus mB mM.
  Proof using B M. pose proof tm_lt as L. pose proof default_between. destruct t0; [lra | intros; exact L | auto]. Qed.
  Lemma z_unfold q2 t0 : z mB mM q2 t0 =
    (do sq2 <- psqrt (t_plus mB mM - q2); do st0 <- psqrt (t_plus mB mM - t_zero mB mM t0); pdiv (sq2 - st0) (sq2 + st0)).
  Proof using B M.
    unfold z. destruct t0; [| reflexivity | reflexivity]. destruct def_t0 as (x & s & E1 & E2 & E3). fold (t_minus mB mM). fold (t_plus mB mM).
    rewrite E1. cbn [bind]. rewrite E2. cbn [bind]. rewrite E3. reflexivity.
  Qed.
  Definition zval (q2 : R) (t0 : t0arg) : R :=
    (sqrt (t_plus mB mM - q2) - sqrt (t_plus mB mM - t_zero mB mM t0)) / (sqrt (t_plus mB mM - q2) + sqrt (t_plus mB mM - t_zero mB mM t0)).
  Lemma z_is q2 t0 : q2 <= t_plus mB mM -> t_zero mB mM t0 < t_plus mB mM -> z mB mM q2 t0 = Ok (zval q2 t0).
  Proof using B M.
    intros Q T. rewrite z_unfold, !psqrt_is by lra. cbn [bind]. apply pdiv_is. apply Rgt_not_eq. pose proof (sqrt_pos (t_plus mB mM - q2)). assert (0 < sqrt (t_plus mB mM - t_zero mB mM t0)) by (apply sqrt_lt_R0; lra). lra.
  Qed.
  Lemma z_err q2 t0 : t_plus mB mM < q2 -> z mB mM q2 t0 = Err ValueError.
  Proof using B M. intros Q. rewrite z_unfold. unfold psqrt at 1. destruct (Rlt_dec (t_plus mB mM - q2) 0); [reflexivity | lra]. Qed.
  Lemma st_pos t0 : t_zero mB mM t0 < t_plus mB mM -> 0 < sqrt (t_plus mB mM - t_zero mB mM t0).
  Proof using. intros. apply sqrt_lt_R0. lra. Qed.
  Lemma zval_range q2 t0 : t_zero mB mM t0 < t_plus mB mM -> -1 <= zval q2 t0 < 1 /\ (q2 < t_plus mB mM -> -1 < zval q2 t0).
  Proof using.
    intros T. pose proof (st_pos t0 T) as P. unfold zval. set (s := sqrt (t_plus mB mM - q2)). assert (S0 : 0 <= s) by apply sqrt_pos. set (t := sqrt (t_plus mB mM - t_zero mB mM t0)) in *.
    assert (E : (s - t) / (s + t) = -1 + 2 * s / (s + t)) by (field; lra). assert (E' : (s - t) / (s + t) = 1 - 2 * t / (s + t)) by (field; lra).
    assert (Q : 0 < / (s + t)) by (apply Rinv_0_lt_compat; lra). assert (0 <= 2 * s / (s + t)) by (apply Rmult_le_pos; lra). assert (0 < 2 * t / (s + t)) by (apply Rmult_lt_0_compat; lra).
    split; [lra |]. intros L. assert (0 < s) by (apply sqrt_lt_R0; lra). assert (0 < 2 * s / (s + t)) by (apply Rmult_lt_0_compat; lra). lra.
  Qed.
  Lemma zval_zero t0 : t_zero mB mM t0 < t_plus mB mM -> zval (t_zero mB mM t0) t0 = 0.
  Proof using. intros T. pose proof (st_pos t0 T). unfold zval. field. lra. Qed.
  Lemma zval_decr q q' t0 : t_zero mB mM t0 < t_plus mB mM -> q < q' -> q' <= t_plus mB mM -> zval q' t0 < zval q t0.
  Proof using.
    intros T L U. pose proof (st_pos t0 T) as P. unfold zval. set (t := sqrt (t_plus mB mM - t_zero mB mM t0)) in *.
    assert (S : sqrt (t_plus mB mM - q') < sqrt (t_plus mB mM - q)) by (apply sqrt_lt_1_alt; lra). set (s := sqrt (t_plus mB mM - q)) in *. set (s' := sqrt (t_plus mB mM - q')) in *. assert (0 <= s') by apply sqrt_pos.
    assert (E : (s - t) / (s + t) - (s' - t) / (s' + t) = 2 * t * (s - s') * / ((s + t) * (s' + t))) by (field; lra).
    assert (0 < 2 * t * (s - s') * / ((s + t) * (s' + t))). { apply Rmult_lt_0_compat; [apply Rmult_lt_0_compat; lra |]. apply Rinv_0_lt_compat. apply Rmult_lt_0_compat; lra. } lra.
  Qed.
  Lemma zval_sym : zval (t_minus mB mM) T0none = - zval 0 T0none.
  Proof using B M.
    pose proof tp_pos as P. pose proof tm_lt as L. pose proof tm_nonneg as N. unfold zval. set (p := t_plus mB mM) in *. set (m := t_minus mB mM) in *.
    assert (ET : p - t_zero mB mM T0none = sqrt p * sqrt (p - m)) by (unfold t_zero; fold p m; rewrite sqrt_mult by lra; ring).
    rewrite ET. assert (a : 0 < sqrt p) by (apply sqrt_lt_R0; lra). assert (b : 0 < sqrt (p - m)) by (apply sqrt_lt_R0; lra).
    rewrite sqrt_mult by lra. set (u := sqrt (sqrt p)). set (v := sqrt (sqrt (p - m))). assert (u0 : 0 < u) by (apply sqrt_lt_R0; lra). assert (v0 : 0 < v) by (apply sqrt_lt_R0; lra).
    assert (Eu : sqrt p = u ^ 2) by (unfold u; rewrite pow2_sqrt; lra). assert (Ev : sqrt (p - m) = v ^ 2) by (unfold v; rewrite pow2_sqrt; lra). rewrite Rminus_0_r, Eu, Ev.
    field. repeat split; nra.
  Qed.
  Lemma zval_recoil q2 : q2 < t_plus mB mM -> recoil mB mM q2 - 1 = 8 * zval q2 T0tm / (1 - zval q2 T0tm) ^ 2.
  Proof using B M.
    intros Q. pose proof tm_lt as L. unfold zval. change (t_zero mB mM T0tm) with (t_minus mB mM).
    assert (P : 0 < sqrt (t_plus mB mM - t_minus mB mM)) by (apply sqrt_lt_R0; lra). assert (S0 : 0 < sqrt (t_plus mB mM - q2)) by (apply sqrt_lt_R0; lra).
    assert (E1 : sqrt (t_plus mB mM - t_minus mB mM) ^ 2 = 4 * mB * mM) by (rewrite pow2_sqrt by lra; unfold t_plus, t_minus; ring).
    assert (E2 : sqrt (t_plus mB mM - q2) ^ 2 = (mB + mM) ^ 2 - q2) by (rewrite pow2_sqrt by lra; reflexivity).
    set (t := sqrt (t_plus mB mM - t_minus mB mM)) in *. set (s := sqrt (t_plus mB mM - q2)) in *.
    replace (1 - (s - t) / (s + t)) with (2 * t / (s + t)) by (field; lra).
    replace (8 * ((s - t) / (s + t)) / (2 * t / (s + t)) ^ 2) with (2 * (s ^ 2 - t ^ 2) / t ^ 2) by (field; lra).
    rewrite E1, E2. unfold recoil. field. lra.
  Qed.
End Zvar.

(** ** expansion in z *)
Lemma poly_bound (a : list R) (x : R) : Rabs x <= 1 -> Rabs (poly a x) <= fold_right (fun c s => Rabs c + s) 0 a.
Proof.
  intros X. induction a as [| c a IH]; cbn [poly fold_right]; [rewrite Rabs_R0; lra |].
  eapply Rle_trans; [apply Rabs_triang |]. apply Rplus_le_compat_l. rewrite Rabs_mult. pose proof (Rabs_pos (poly a x)). pose proof (Rabs_pos x). nra.
Qed.
Lemma taylor_bound (F T : R -> R) (k m : nat) (a : list R) :
  (forall x, x <> 1 -> F x - T x = x ^ m * (poly a x / (1 - x) ^ k)) ->
  exists Mb, forall x, Rabs x <= 1 / 2 -> Rabs (F x - T x) <= Mb * Rabs x ^ m.
Proof.
  intros E. exists (fold_right (fun c s => Rabs c + s) 0 a * 2 ^ k). intros x X. assert (X' : -(1/2) <= x <= 1/2) by (revert X; unfold Rabs; destruct (Rcase_abs x); lra). rewrite E by lra. rewrite Rabs_mult, RPow_abs, Rmult_comm. apply Rmult_le_compat_r; [apply Rabs_pos |].
  unfold Rdiv. rewrite Rabs_mult. pose proof (poly_bound a x ltac:(lra)) as PB. apply Rmult_le_compat; [apply Rabs_pos | apply Rabs_pos | exact PB |].
  assert (0 < (1 - x) ^ k) by (apply pow_lt; lra). rewrite Rabs_right by (apply Rle_ge; left; now apply Rinv_0_lt_compat).
  rewrite <- pow_inv. apply pow_incr. split; [left; apply Rinv_0_lt_compat; lra |]. rewrite <- (Rinv_inv 2). apply Rinv_le_contravar; lra.
Qed.
