(** * Proofs for the neutral-current observables: bounds on ratios, positivity of integrals *)
From Coq Require Import Reals Lra.
From Coquelicot Require Import Coquelicot.
From Verif Require Import Base Basics_Model Basics_Proofs Angular_Model Angular_Spec Angular_Proofs Angular_Proofs2 Angular_Proofs3 Angular_Proofs4 Angular_Proofs5 Angular_Proofs6 Angular_Proofs7 Angular_Proofs8 Angular_Proofs9 Decays_Model Decays_Spec Decays_Proofs Decays_Proofs2 Decays_Proofs3 Decays_Proofs4 Decays_Proofs5 DecaysNC_Model DecaysNC_Spec DecaysNC_Proofs DecaysNC_Proofs2 DecaysNC_Proofs3.
Local Open Scope string_scope.
Local Open Scope R_scope.

(** ** ratios; a vanishing denominator forces vanishing numerators *)
Lemma sq0 (x : R) : x ^ 2 <= 0 -> x = 0.
Proof. intros L. destruct (Req_dec x 0) as [E | E]; [exact E |]. pose proof (pow2_gt_0 x E). lra. Qed.
Lemma div01 (x y : R) : 0 <= x <= y -> 0 <= x / y <= 1.
Proof. intros L. rewrite <- ratio0_div. now apply ratio0_01. Qed.
Lemma div_abs (x y c : R) : 0 <= c -> Rabs x <= c * y -> Rabs (x / y) <= c.
Proof.
  intros Hc L. destruct (Req_dec x 0) as [-> | N]; [unfold Rdiv; rewrite Rmult_0_l, Rabs_R0; exact Hc |].
  assert (P : 0 < Rabs x) by now apply Rabs_pos_lt. assert (Y : 0 < y) by (destruct (Rle_dec y 0) as [l | l]; [exfalso; assert (c * y <= 0) by (rewrite <- (Rmult_0_r c); now apply Rmult_le_compat_l); lra | lra]).
  unfold Rdiv. rewrite Rabs_mult, Rabs_inv, (Rabs_right y) by lra. apply (Rmult_le_reg_r y); [exact Y |]. rewrite Rmult_assoc, Rinv_l by lra. lra.
Qed.
Lemma val_369 (x y z v s : R) : 0 <= 2 * s -> (1 * x) ^ 2 + (1 * y) ^ 2 + (v / 2 * z) ^ 2 <= (2 * s) ^ 2 -> (x / 2 / s) ^ 2 + 4 * v ^ 2 * (- z / 8 / s) ^ 2 + 4 * (y / 4 / s) ^ 2 <= 1.
Proof.
  intros S L. pose proof (pow2_ge_0 (1 * x)) as px. pose proof (pow2_ge_0 (1 * y)) as py. pose proof (pow2_ge_0 (v / 2 * z)) as pz.
  destruct (Req_dec s 0) as [E | E].
  - rewrite E in *. replace ((2 * 0) ^ 2) with 0 in L by ring. assert (X : 1 * x = 0) by (apply sq0; lra). assert (Y : 1 * y = 0) by (apply sq0; lra). assert (Z : v / 2 * z = 0) by (apply sq0; lra).
    replace (x / 2 / 0) with (1 * x * / 2 * / 0) by (unfold Rdiv; ring). replace (4 * v ^ 2 * (- z / 8 / 0) ^ 2) with ((v / 2 * z) ^ 2 * (/ 4 * (/ 0) ^ 2)) by (unfold Rdiv; set (i := / 0); field).
    replace (y / 4 / 0) with (1 * y * / 4 * / 0) by (unfold Rdiv; ring). rewrite X, Y, Z. unfold Rdiv. lra.
  - replace ((x / 2 / s) ^ 2 + 4 * v ^ 2 * (- z / 8 / s) ^ 2 + 4 * (y / 4 / s) ^ 2) with (((1 * x) ^ 2 + (1 * y) ^ 2 + (v / 2 * z) ^ 2) / (2 * s) ^ 2) by (field; exact E).
    assert (P : 0 < (2 * s) ^ 2) by (apply pow_lt; lra). apply (Rmult_le_reg_r ((2 * s) ^ 2)); [exact P |]. unfold Rdiv. rewrite Rmult_assoc, Rinv_l by lra. lra.
Qed.
Lemma val_two (c x y A B : R) : 0 <= c -> 0 <= A -> 0 <= B -> x ^ 2 + y ^ 2 <= c * (A * B) -> (x / (2 * sqrt (A * B))) ^ 2 + (y / (2 * sqrt (A * B))) ^ 2 <= c / 4.
Proof.
  intros Hc HA HB L. assert (AB : 0 <= A * B) by now apply Rmult_le_pos. pose proof (pow2_ge_0 x) as px. pose proof (pow2_ge_0 y) as py.
  destruct (Req_dec (A * B) 0) as [E | E].
  - rewrite E in *. rewrite Rmult_0_r in L. assert (X : x = 0) by (apply sq0; lra). assert (Y : y = 0) by (apply sq0; lra). rewrite X, Y. unfold Rdiv. rewrite !Rmult_0_l. lra.
  - assert (P : 0 < A * B) by lra. pose proof (pow2_sqrt _ AB) as Q. assert (S0 : 0 < sqrt (A * B)) by now apply sqrt_lt_R0. set (r := sqrt (A * B)) in *.
    replace ((x / (2 * r)) ^ 2 + (y / (2 * r)) ^ 2) with ((x ^ 2 + y ^ 2) / (4 * r ^ 2)) by (field; lra). rewrite Q. apply (Rmult_le_reg_r (4 * (A * B))); [lra |]. unfold Rdiv. rewrite Rmult_assoc, Rinv_l by lra. lra.
Qed.

(** ** positive integrals *)
Definition cf (H : R -> amps) (mB mV m1 m2 t : R) (k : jkey) : R := 16 / 3 * normalisation t mB mV m1 m2 *
  coeff_of (flip t m1 m2 (H t) 1) (flip t m1 m2 (H t) (-1)) (same_v t m1 m2 (H t)) (same_a t m1 m2 (H t)) (scalar t m1 m2 (H t)) (pseudo t m1 m2 (H t)) k.
Lemma cf_cont (H : R -> amps) (mB mV m1 m2 x : R) (k : jkey) : 0 < mB -> 0 < x -> amps_cont H x -> rc (fun t => cf H mB mV m1 m2 t k) x.
Proof.
  intros HB X0 C. unfold cf. apply (rc_mult x (fun t => 16 / 3 * normalisation t mB mV m1 m2)); [apply (rc_mult x (fun _ => 16 / 3)); [apply rc_const | apply rc_norm; assumption] |].
  apply (rc_coeff (fun t => flip t m1 m2 (H t) 1) (fun t => flip t m1 m2 (H t) (-1)) (fun t => same_v t m1 m2 (H t)) (fun t => same_a t m1 m2 (H t)) (fun t => scalar t m1 m2 (H t)) (fun t => pseudo t m1 m2 (H t)) k x).
  - intros l. exact (cc_flip H m1 m2 x X0 C 1 l).
  - intros l. exact (cc_flip H m1 m2 x X0 C (-1) l).
  - intros l. exact (cc_same_v H m1 m2 x X0 C l).
  - intros l. exact (cc_same_a H m1 m2 x X0 C l).
  - exact (cc_scalar H m1 m2 x X0 C).
  - exact (cc_pseudo H m1 m2 x X0 C).
Qed.
Lemma lin_cont (c : jkey -> R) (J : R -> jkey -> R) (x : R) : (forall k, rc (fun t => J t k) x) -> rc (fun t => lin c (J t)) x.
Proof.
  intros P. unfold lin. assert (Q : forall k, rc (fun t => c k * J t k) x) by (intros k; apply (rc_mult x (fun _ => c k)); [apply rc_const | apply P]).
  repeat (lazymatch goal with |- rc (fun t => @?f t + @?g t) ?x => apply (rc_plus x f g); cbv beta; [| apply Q] end). apply Q.
Qed.
Lemma lin_gt0 (H : R -> amps) (mB mV m1 m2 a b : R) (c : jkey -> R) : 0 < mB -> 0 < a < b -> 0 <= m1 -> 0 <= m2 -> (m1 + m2) ^ 2 <= a -> (forall x, a <= x <= b -> amps_cont H x) ->
  let J t := angularcoeffs_general_v (H t) t mB mV m1 m2 in
  (forall x, a < x < b -> 0 < lin c (J x)) -> 0 < lin c (over J a b).
Proof.
  intros HB L M1 M2 T C J P. assert (I : forall k, int (fun t => J t k) a b) by (intros k; apply J_int; try assumption; lra).
  rewrite <- (lin_RInt J a b I). assert (E : forall x, a <= x <= b -> lin c (J x) = lin c (cf H mB mV m1 m2 x)).
  { intros x X. unfold lin. assert (Ph : physical x m1 m2) by (unfold physical; lra). unfold J. rewrite !coefficients by exact Ph. reflexivity. }
  rewrite (RI_ext _ (fun x => lin c (cf H mB mV m1 m2 x))) by (try (intros; apply E); lra).
  apply RInt_gt_0; [lra | intros x X; rewrite <- E by lra; now apply P |].
  intros x X. apply (lin_cont c (cf H mB mV m1 m2)). intros k. apply cf_cont; [exact HB | lra | apply C; lra].
Qed.
