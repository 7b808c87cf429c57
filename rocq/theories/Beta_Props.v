(** * Theorems about nuclear and neutron beta decay (C193 - C197) *)
From Coq Require Import Reals Lra.
From Coquelicot Require Import Coquelicot.
From Coq Require Import String List.
From Verif Require Import Base Basics_Model Basics_Proofs WCtot_Model Beta_Model Beta_Proofs.
Import ListNotations.
Local Open Scope R_scope.

Lemma ok_inj {A} (x y : A) : Ok x = Ok y -> x = y. Proof. congruence. Qed.
Lemma some_inj {A} (x y : A) : Some x = Some y -> x = y. Proof. congruence. Qed.

(** ** C193: the decay distribution of polarised neutrons. With unit vectors n (polarisation), e and v (directions of electron and antineutrino), the velocity beta of the
    electron and m = m_e/E, 1 + b m + a beta e.v + n.(A beta e + B v + D beta e x v) is never negative *)
Definition V3 : Type := (R * R * R)%type.
Definition dot (a b : V3) : R := let '(a1, a2, a3) := a in let '(b1, b2, b3) := b in a1 * b1 + a2 * b2 + a3 * b3.
Definition cross (a b : V3) : V3 := let '(a1, a2, a3) := a in let '(b1, b2, b3) := b in (a2 * b3 - a3 * b2, a3 * b1 - a1 * b3, a1 * b2 - a2 * b1).
Definition unit (a : V3) : Prop := dot a a = 1.
Lemma dot_unit a b : unit a -> unit b -> -1 <= dot a b <= 1.
Proof.
  destruct a as [[a1 a2] a3], b as [[b1 b2] b3]. unfold unit, dot. intros ha hb.
  generalize (pow2_ge_0 (a1 - b1)) (pow2_ge_0 (a2 - b2)) (pow2_ge_0 (a3 - b3)) (pow2_ge_0 (a1 + b1)) (pow2_ge_0 (a2 + b2)) (pow2_ge_0 (a3 + b3)). lra.
Qed.
Lemma gram a b c : unit a -> unit b -> unit c -> dot a (cross b c) ^ 2 = 1 - dot b c ^ 2 - dot a b ^ 2 - dot a c ^ 2 + 2 * dot b c * dot a b * dot a c.
Proof.
  intros ha hb hc. assert (E : dot a (cross b c) ^ 2 = dot a a * dot b b * dot c c - dot a a * dot b c ^ 2 - dot c c * dot a b ^ 2 - dot b b * dot a c ^ 2 + 2 * dot b c * dot a b * dot a c).
  { destruct a as [[a1 a2] a3], b as [[b1 b2] b3], c as [[c1 c2] c3]. unfold dot, cross. ring. }
  rewrite E, ha, hb, hc. ring.
Qed.
Definition distribution (b a A B D beta m : R) (n e v : V3) : R :=
  1 + b * m + a * beta * dot e v + A * beta * dot n e + B * dot n v + D * beta * dot n (cross e v).
Lemma xi_pos k : 0 <= n_xi k. Proof. rewrite n_xi_is. generalize (N2_pos (kV k)) (N2_pos (kS k)) (N2_pos (kA k)) (N2_pos (kT k)). lra. Qed.
Theorem C193_distribution : forall p k beta m A B n e v, n_xi k <> 0 -> 0 <= beta <= 1 -> 0 <= m -> beta ^ 2 + m ^ 2 = 1 -> unit n -> unit e -> unit v ->
  n_A k = Ok A -> n_B k m = Ok B -> 0 <= distribution (n_b p k) (n_a k) A B (n_D k) beta m n e v.
Proof.
  intros p k beta m A B n e v hx hb hm hbm hn he hv HA HB.
  unfold n_A, cA in HA. rewrite n_A_is in HA. cbn [bind] in HA. apply ok_inj in HA. subst A.
  unfold n_B, cB in HB. rewrite n_B_is in HB. cbn [bind] in HB. apply ok_inj in HB. subst B.
  unfold distribution, n_b, cb, n_a, ca, n_D, cD. rewrite n_b_is, n_a_is, n_D_is. fold (n_xi k).
  assert (X : 0 < n_xi k) by (pose proof (xi_pos k); lra).
  destruct (mix_exists beta m hb hm hbm) as (s & q & hsq & -> & ->).
  pose proof (dot_unit e v he hv) as h1. pose proof (dot_unit n e hn he) as h2. pose proof (dot_unit n v hn hv) as h3. pose proof (gram n e v hn he hv) as G.
  set (c := dot e v) in *. set (ne := dot n e) in *. set (nv := dot n v) in *. set (t := dot n (cross e v)) in *.
  pose proof (helicities s q c ne nv t (kV k) (kS k) (kA k) (kT k) hsq) as E.
  pose proof (Fe_pos c ne nv t (cadd s q (kV k) (kS k)) (cadd s q (kA k) (kT k)) h1 h2 h3 G) as P1.
  assert (P2 : 0 <= Fe (- c) (- ne) nv (- t) (cadd q s (kV k) (kS k)) (cadd q s (kA k) (kT k))) by (apply Fe_pos; [lra | lra | lra | replace ((- t) ^ 2) with (t ^ 2) by ring; rewrite G; ring]).
  apply Rmult_le_reg_l with (n_xi k / 2); [lra|]. rewrite Rmult_0_r.
  match goal with |- 0 <= ?x => replace x with (Fe c ne nv t (cadd s q (kV k) (kS k)) (cadd s q (kA k) (kT k)) + Fe (- c) (- ne) nv (- t) (cadd q s (kV k) (kS k)) (cadd q s (kA k) (kT k))) end; [lra|].
  rewrite <- E.
  assert (X2 : n_xi k / 2 = N2 (kV k) + N2 (kS k) + 3 * (N2 (kA k) + N2 (kT k))) by (rewrite n_xi_is; field).
  assert (Y : forall x y, n_xi k / 2 * (x / n_xi k * y) = x / 2 * y) by (intros; field; lra).
  assert (Z : forall x, n_xi k / 2 * (x / n_xi k) = x / 2) by (intros; field; lra).
  rewrite !Rmult_plus_distr_l, Rmult_1_r, (Rmult_assoc (_ / _) _ c), (Rmult_assoc (_ / _) _ ne), (Rmult_assoc (_ / _) _ t), !Y, X2. field.
Qed.
Print Assumptions C193_distribution.
(** bounds on the coefficients for all couplings *)
Theorem C193_bounds : forall p k m, n_xi k <> 0 -> 0 <= m <= 1 ->
  (forall x, In (Some (Ok x)) [Neutron_corr p k m "a"; Neutron_corr p k m "b"; Neutron_corr p k m "A"] -> Rabs x <= 1)
  /\ (forall B, Neutron_corr p k m "B" = Some (Ok B) -> Rabs B <= 1 + n_b p k * m).
Proof.
  intros p k m hx hm. assert (X : 0 < n_xi k) by (pose proof (xi_pos k); lra).
  assert (D : forall x y, - (y * n_xi k) <= x <= y * n_xi k -> Rabs (x / n_xi k) <= y).
  { intros x y h. unfold Rdiv. rewrite Rabs_mult, (Rabs_right (/ n_xi k)) by (left; apply Rinv_0_lt_compat, X).
    change (Rabs x / n_xi k <= y). apply Rle_div_l; [exact X | apply Rabs_le; exact h]. }
  assert (hV := N2_pos (kV k)). assert (hS := N2_pos (kS k)). assert (hA := N2_pos (kA k)). assert (hT := N2_pos (kT k)).
  assert (Q : forall x y, - (N2 x + N2 y) <= 2 * rp x y <= N2 x + N2 y).
  { intros [a b] [c d]. unfold N2, rp. cbn [fst snd]. generalize (pow2_ge_0 (a + c)) (pow2_ge_0 (b + d)) (pow2_ge_0 (a - c)) (pow2_ge_0 (b - d)). lra. }
  assert (Q3 : forall x y, - (N2 x + 3 * N2 y) <= 2 * (N2 y + rp x y)).
  { intros [a b] [c d]. unfold N2, rp. cbn [fst snd]. generalize (pow2_ge_0 (a + c)) (pow2_ge_0 (b + d)) (pow2_ge_0 c) (pow2_ge_0 d). lra. }
  assert (Q3' : forall x y, - (N2 x + 3 * N2 y) <= 2 * (N2 y - rp x y)).
  { intros [a b] [c d]. unfold N2, rp. cbn [fst snd]. generalize (pow2_ge_0 (a - c)) (pow2_ge_0 (b - d)) (pow2_ge_0 c) (pow2_ge_0 d). lra. }
  assert (Q4 : forall x y, 2 * (N2 y + rp x y) <= N2 x + 3 * N2 y /\ 2 * (N2 y - rp x y) <= N2 x + 3 * N2 y).
  { intros [a b] [c d]. unfold N2, rp. cbn [fst snd]. generalize (pow2_ge_0 (a + c)) (pow2_ge_0 (b + d)) (pow2_ge_0 (a - c)) (pow2_ge_0 (b - d)). lra. }
  split.
  - intros x [H | [H | [H | []]]]; cbn [Neutron_corr] in H; apply some_inj in H.
    + apply ok_inj in H. subst x. unfold n_a, ca. rewrite n_a_is. fold (n_xi k). apply D. rewrite n_xi_is. lra.
    + apply ok_inj in H. subst x. unfold n_b, cb. rewrite n_b_is. fold (n_xi k). apply D. rewrite n_xi_is. generalize (Q (kV k) (kS k)) (Q (kA k) (kT k)). lra.
    + unfold n_A, cA in H. rewrite n_A_is in H. cbn [bind] in H. apply ok_inj in H. subst x. fold (n_xi k). apply D. rewrite n_xi_is.
      generalize (Q3 (kV k) (kA k)) (Q3 (kS k) (kT k)) (Q3' (kV k) (kA k)) (Q3' (kS k) (kT k)) (Q4 (kV k) (kA k)) (Q4 (kS k) (kT k)). lra.
  - intros B H. cbn [Neutron_corr] in H. apply some_inj in H. unfold n_B, cB in H. rewrite n_B_is in H. cbn [bind] in H. apply ok_inj in H. subst B. fold (n_xi k). apply D.
    rewrite Rmult_plus_distr_r, Rmult_1_l. replace (n_b p k * m * n_xi k) with (4 * (rp (kV k) (kS k) + 3 * rp (kA k) (kT k)) * m) by (unfold n_b, cb; rewrite n_b_is; fold (n_xi k); field; lra).
    rewrite n_xi_is.
    (* averaged over the directions of the electron: a mixture of m = 0 and m = 1 *)
    assert (U : forall s, (s = 1 \/ s = -1) -> 0 <= (1 - m) * ((N2 (kV k) - 2 * s * rp (kV k) (kA k) + (3 + 2 * s) * N2 (kA k)) + (N2 (kS k) - 2 * s * rp (kS k) (kT k) + (3 + 2 * s) * N2 (kT k)))
      + m * (N2 (cadd 1 1 (kV k) (kS k)) - 2 * s * rp (cadd 1 1 (kV k) (kS k)) (cadd 1 1 (kA k) (kT k)) + (3 + 2 * s) * N2 (cadd 1 1 (kA k) (kT k)))).
    { assert (W : forall s x y, (s = 1 \/ s = -1) -> 0 <= N2 x - 2 * s * rp x y + (3 + 2 * s) * N2 y).
      { intros s [a b] [c d] [-> | ->]; unfold N2, rp; cbn [fst snd]; generalize (pow2_ge_0 (a + c)) (pow2_ge_0 (b + d)) (pow2_ge_0 (a - c)) (pow2_ge_0 (b - d)) (pow2_ge_0 c) (pow2_ge_0 d); lra. }
      intros s hs. generalize (Rmult_le_pos (1 - m) _ ltac:(lra) (Rplus_le_le_0_compat _ _ (W s (kV k) (kA k) hs) (W s (kS k) (kT k) hs))) (Rmult_le_pos m _ ltac:(lra) (W s (cadd 1 1 (kV k) (kS k)) (cadd 1 1 (kA k) (kT k)) hs)). lra. }
    pose proof (U 1 (or_introl eq_refl)) as U1. pose proof (U (-1) (or_intror eq_refl)) as U2. clear - U1 U2.
    unfold cadd, N2, rp in *. cbn [fst snd] in *. split; lra.
Qed.
Print Assumptions C193_bounds.
Definition k_ex : couplings := Cpl (RtoC 1) (RtoC (- (5 / 4))) (0, 1 / 10) (RtoC 0) (RtoC (1 / 100)).
Example neutron_meets : n_xi k_ex <> 0 /\ unit (1, 0, 0) /\ unit (0, 1, 0) /\ unit (0, 3 / 5, 4 / 5) /\ (3 / 5) ^ 2 + (4 / 5) ^ 2 = 1
  /\ (exists A, n_A k_ex = Ok A) /\ exists B, n_B k_ex (4 / 5) = Ok B.
Proof.
  split; [rewrite n_xi_is; unfold k_ex, N2; cbn [kV kS kA kT fst snd RtoC]; lra|]. unfold unit, dot.
  repeat (split; [lra|]). split; [unfold n_A, cA; rewrite n_A_is | unfold n_B, cB; rewrite n_B_is]; cbn [bind]; eexists; reflexivity.
Qed.

(** ** C194: all transitions *)
Lemma sq_abs x : Rabs x ^ 2 = x ^ 2. Proof. rewrite <- !Rsqr_pow2. symmetry. apply Rsqr_abs. Qed.
Lemma xi_is k MF MGT : xi k MF MGT = 2 * (MF ^ 2 * (N2 (kV k) + N2 (kS k)) + MGT ^ 2 * (N2 (kA k) + N2 (kT k))).
Proof. unfold xi. rewrite !cmod_sq, !sq_abs. reflexivity. Qed.
Lemma rp_bound x y : - (N2 x + N2 y) <= 2 * rp x y <= N2 x + N2 y.
Proof. destruct x as [a b], y as [c d]. unfold N2, rp. cbn [fst snd]. generalize (pow2_ge_0 (a + c)) (pow2_ge_0 (b + d)) (pow2_ge_0 (a - c)) (pow2_ge_0 (b - d)). lra. Qed.
Lemma abs_div x y X : 0 < X -> - (y * X) <= x <= y * X -> Rabs (x / X) <= y.
Proof.
  intros hX h. unfold Rdiv. rewrite Rabs_mult, (Rabs_right (/ X)) by (left; apply Rinv_0_lt_compat, hX).
  change (Rabs x / X <= y). apply Rle_div_l; [exact hX | apply Rabs_le; exact h].
Qed.
Theorem C194_bounds : forall k MF MGT alpha Z s, xi k MF MGT <> 0 -> s = 1 \/ s = -1 ->
  Rabs (ca k MF MGT) <= 1 /\ Rabs (cb k MF MGT alpha Z s) <= sqrt (1 - (alpha * Z) ^ 2) /\ (alpha * Z <> 0 -> Rabs (cb k MF MGT alpha Z s) < 1).
Proof.
  intros k MF MGT alpha Z s hx hs.
  assert (hV := N2_pos (kV k)). assert (hS := N2_pos (kS k)). assert (hA := N2_pos (kA k)). assert (hT := N2_pos (kT k)).
  assert (hF := pow2_ge_0 MF). assert (hG := pow2_ge_0 MGT).
  assert (p1 := Rmult_le_pos _ _ hF hV). assert (p2 := Rmult_le_pos _ _ hF hS). assert (p3 := Rmult_le_pos _ _ hG hA). assert (p4 := Rmult_le_pos _ _ hG hT).
  assert (X : 0 < xi k MF MGT) by (rewrite xi_is in *; lra).
  assert (B : Rabs (cb k MF MGT alpha Z s) <= sqrt (1 - (alpha * Z) ^ 2)).
  { unfold cb. apply abs_div; [exact X|]. unfold b_xi. cbv zeta. rewrite !sq_abs. replace (1 - alpha ^ 2 * Z ^ 2) with (1 - (alpha * Z) ^ 2) by ring.
    set (g := sqrt (1 - (alpha * Z) ^ 2)). assert (hg : 0 <= g) by apply sqrt_pos.
    replace (Re (kV k * Cconj (kS k))%C) with (rp (kV k) (kS k)) by (unfold rp; cbn [fst snd Re Im Cmult Cconj]; ring).
    replace (Re (kA k * Cconj (kT k))%C) with (rp (kA k) (kT k)) by (unfold rp; cbn [fst snd Re Im Cmult Cconj]; ring).
    rewrite xi_is. destruct (rp_bound (kV k) (kS k)) as (b1 & b2). destruct (rp_bound (kA k) (kT k)) as (b3 & b4).
    assert (m1 := Rmult_le_compat_l _ _ _ hF b1). assert (m2 := Rmult_le_compat_l _ _ _ hF b2). assert (m3 := Rmult_le_compat_l _ _ _ hG b3). assert (m4 := Rmult_le_compat_l _ _ _ hG b4).
    set (u := MF ^ 2 * rp (kV k) (kS k) + MGT ^ 2 * rp (kA k) (kT k)). set (w := MF ^ 2 * (N2 (kV k) + N2 (kS k)) + MGT ^ 2 * (N2 (kA k) + N2 (kT k))).
    assert (k1 : 2 * u <= w) by (unfold u, w; lra). assert (k2 : - w <= 2 * u) by (unfold u, w; lra).
    assert (n1 := Rmult_le_compat_l _ _ _ hg k1). assert (n2 := Rmult_le_compat_l _ _ _ hg k2). destruct hs as [-> | ->]; lra. }
  split; [|split; [exact B|]].
  - unfold ca. apply abs_div; [exact X|]. unfold a_xi. rewrite !cmod_sq, !sq_abs, xi_is. unfold N2 in *. lra.
  - intro N. apply Rle_lt_trans with (1 := B). rewrite <- sqrt_1 at 2. assert (0 < (alpha * Z) ^ 2) by (apply Rsqr_pos_lt in N; rewrite Rsqr_pow2 in N; exact N).
    destruct (Rle_lt_dec 0 (1 - (alpha * Z) ^ 2)) as [h | h]; [apply sqrt_lt_1; lra | rewrite sqrt_neg_0 by lra; rewrite sqrt_1; lra].
Qed.
Print Assumptions C194_bounds.
(** all coefficients of a transition: the same observables *)
Definition same (k k' : couplings) (MF MGT J Jf alpha Z s s' sgA sgD sgR : R) (m : R) : Prop :=
  ca k' MF MGT = ca k MF MGT /\ cb k' MF MGT alpha Z s' = cb k MF MGT alpha Z s /\ cD k' MF MGT J Jf = sgD * cD k MF MGT J Jf
  /\ (forall x, cA k MF MGT J Jf s = Ok x -> cA k' MF MGT J Jf s' = Ok (sgA * x))
  /\ (forall x, cB k MF MGT J Jf m s = Ok x -> cB k' MF MGT J Jf m s' = Ok (sgA * x))
  /\ (forall x, cR k MF MGT J Jf s = Ok x -> cR k' MF MGT J Jf s' = Ok (sgR * x)).
(** a common factor of all couplings has no effect *)
Theorem C194_normalisation : forall k z MF MGT J Jf alpha Z s m, z <> RtoC 0 ->
  same k (Cpl (z * kV k) (z * kA k) (z * kS k) (z * kP k) (z * kT k))%C MF MGT J Jf alpha Z s s 1 1 1 m.
Proof.
  intros k z MF MGT J Jf alpha Z s m hz.
  assert (hN : N2 z <> 0). { intro e. apply hz. unfold N2 in e. destruct z as [a b]. cbn [fst snd] in e. pose proof (pow2_ge_0 a). pose proof (pow2_ge_0 b).
    assert (a = 0) by (apply Rsqr_0_uniq; unfold Rsqr; lra). assert (b = 0) by (apply Rsqr_0_uniq; unfold Rsqr; lra). subst. reflexivity. }
  set (k' := Cpl _ _ _ _ _).
  assert (hxi : xi k' MF MGT = N2 z * xi k MF MGT) by (rewrite !xi_is; unfold k', N2; cbn [kV kA kS kT fst snd Cmult]; ring).
  assert (Q : forall x, N2 z * x / (N2 z * xi k MF MGT) = 1 * (x / xi k MF MGT)).
  { intro x. destruct (Req_dec (xi k MF MGT) 0) as [e | e]; [rewrite e, Rmult_0_r; unfold Rdiv; rewrite Rinv_0; ring | field; split; assumption]. }
  unfold same. rewrite <- (Rmult_1_l (ca k MF MGT)), <- (Rmult_1_l (cb k MF MGT alpha Z s)).
  split; [|split; [|split; [|split; [|split]]]].
  - unfold ca. rewrite hxi, <- Q. f_equal. unfold a_xi. rewrite !cmod_sq. unfold k', N2. cbn [kV kA kS kT fst snd Cmult]. field.
  - unfold cb. rewrite hxi, <- Q. f_equal. unfold b_xi. cbv zeta. unfold k', N2. cbn [kV kA kS kT fst snd Re Im Cmult Cconj]. ring.
  - unfold cD. rewrite hxi, <- Q. f_equal. unfold D_xi, k', N2. cbn [kV kA kS kT fst snd Re Im RtoC Cplus Cminus Copp Cmult Cconj]. ring.
  - intros x H. unfold cA, A_xi in *. destruct (la Jf J) as [l|]; [|discriminate]. cbn [bind] in *. apply ok_inj in H. subst x. rewrite hxi, <- Q. do 2 f_equal. rewrite !cmod_sq.
    unfold k', N2. cbn [kV kA kS kT fst snd Re Im RtoC Cplus Cminus Copp Cmult Cconj]. ring.
  - intros x H. unfold cB, B_xi in *. destruct (la Jf J) as [l|]; [|discriminate]. cbn [bind] in *. apply ok_inj in H. subst x. rewrite hxi, <- Q. do 2 f_equal. rewrite !cmod_sq.
    unfold k', N2. cbn [kV kA kS kT fst snd Re Im RtoC Cplus Cminus Copp Cmult Cconj]. ring.
  - intros x H. unfold cR, R_xi in *. destruct (la Jf J) as [l|]; [|discriminate]. cbn [bind] in *. apply ok_inj in H. subst x. rewrite hxi, <- Q. do 2 f_equal.
    unfold k', N2. cbn [kV kA kS kT fst snd Re Im RtoC Cplus Cminus Copp Cmult Cconj]. ring.
Qed.
Print Assumptions C194_normalisation.
(** time reversal: complex conjugated couplings change the sign of D and R only; they vanish for real couplings *)
Theorem C194_time_reversal : forall k MF MGT J Jf alpha Z s m,
  same k (Cpl (Cconj (kV k)) (Cconj (kA k)) (Cconj (kS k)) (Cconj (kP k)) (Cconj (kT k))) MF MGT J Jf alpha Z s s 1 (-1) (-1) m.
Proof.
  intros k MF MGT J Jf alpha Z s m. set (k' := Cpl _ _ _ _ _).
  assert (hxi : xi k' MF MGT = xi k MF MGT) by (rewrite !xi_is; unfold k', N2; cbn [kV kA kS kT fst snd Cconj]; ring).
  unfold same. split; [|split; [|split; [|split; [|split]]]].
  - unfold ca. rewrite hxi. f_equal. unfold a_xi. rewrite !cmod_sq. unfold k'. cbn [kV kA kS kT fst snd Cconj]. field.
  - unfold cb. rewrite hxi. f_equal. unfold b_xi. cbv zeta. unfold k'. cbn [kV kA kS kT fst snd Re Im Cmult Cconj]. ring.
  - unfold cD. rewrite hxi. unfold Rdiv. rewrite <- Rmult_assoc. f_equal. unfold D_xi, k'. cbn [kV kA kS kT fst snd Re Im RtoC Cplus Cminus Copp Cmult Cconj]. ring.
  - intros x H. unfold cA, A_xi in *. destruct (la Jf J) as [l|]; [|discriminate]. cbn [bind] in *. apply ok_inj in H. subst x. rewrite hxi, Rmult_1_l. do 2 f_equal. rewrite !cmod_sq.
    unfold k'. cbn [kV kA kS kT fst snd Re Im RtoC Cplus Cminus Copp Cmult Cconj]. ring.
  - intros x H. unfold cB, B_xi in *. destruct (la Jf J) as [l|]; [|discriminate]. cbn [bind] in *. apply ok_inj in H. subst x. rewrite hxi, Rmult_1_l. do 2 f_equal. rewrite !cmod_sq.
    unfold k'. cbn [kV kA kS kT fst snd Re Im RtoC Cplus Cminus Copp Cmult Cconj]. ring.
  - intros x H. unfold cR, R_xi in *. destruct (la Jf J) as [l|]; [|discriminate]. cbn [bind] in *. apply ok_inj in H. subst x. rewrite hxi. f_equal. unfold Rdiv. rewrite <- Rmult_assoc. f_equal.
    unfold k'. cbn [kV kA kS kT fst snd Re Im RtoC Cplus Cminus Copp Cmult Cconj]. ring.
Qed.
Print Assumptions C194_time_reversal.
Theorem C194_real : forall k MF MGT J Jf s x, snd (kV k) = 0 -> snd (kA k) = 0 -> snd (kS k) = 0 -> snd (kT k) = 0 -> cR k MF MGT J Jf s = Ok x -> cD k MF MGT J Jf = 0 /\ x = 0.
Proof.
  intros k MF MGT J Jf s x h1 h2 h3 h4 H. split.
  - unfold cD, D_xi. cbn [fst snd Re Im RtoC Cplus Cminus Copp Cmult Cconj]. rewrite h1, h2, h3, h4. unfold Rdiv. ring.
  - unfold cR, R_xi in H. destruct (la Jf J) as [l|]; [|discriminate]. cbn [bind] in H. apply ok_inj in H. subst x.
    cbn [fst snd Re Im RtoC Cplus Cminus Copp Cmult Cconj]. rewrite h1, h2, h3, h4. unfold Rdiv. ring.
Qed.
Print Assumptions C194_real.
(** CP: emission of positrons (s = -1) with the couplings V*, -A*, -S*, T* is described by the same a, b, D, and opposite A, B, R *)
Theorem C194_cp : forall k MF MGT J Jf alpha Z s m,
  same k (Cpl (Cconj (kV k)) (- Cconj (kA k)) (- Cconj (kS k)) (Cconj (kP k)) (Cconj (kT k)))%C MF MGT J Jf alpha Z s (- s) (-1) 1 (-1) m.
Proof.
  intros k MF MGT J Jf alpha Z s m. set (k' := Cpl _ _ _ _ _).
  assert (hxi : xi k' MF MGT = xi k MF MGT) by (rewrite !xi_is; unfold k', N2; cbn [kV kA kS kT fst snd Cconj Copp]; ring).
  unfold same. split; [|split; [|split; [|split; [|split]]]].
  - unfold ca. rewrite hxi. f_equal. unfold a_xi. rewrite !cmod_sq. unfold k'. cbn [kV kA kS kT fst snd Cconj Copp]. field.
  - unfold cb. rewrite hxi. f_equal. unfold b_xi. cbv zeta. unfold k'. cbn [kV kA kS kT fst snd Re Im Cmult Cconj Copp]. ring.
  - unfold cD. rewrite hxi, Rmult_1_l. f_equal. unfold D_xi, k'. cbn [kV kA kS kT fst snd Re Im RtoC Cplus Cminus Copp Cmult Cconj]. ring.
  - intros x H. unfold cA, A_xi in *. destruct (la Jf J) as [l|]; [|discriminate]. cbn [bind] in *. apply ok_inj in H. subst x. rewrite hxi. f_equal. unfold Rdiv. rewrite <- Rmult_assoc. f_equal. rewrite !cmod_sq.
    unfold k'. cbn [kV kA kS kT fst snd Re Im RtoC Cplus Cminus Copp Cmult Cconj]. ring.
  - intros x H. unfold cB, B_xi in *. destruct (la Jf J) as [l|]; [|discriminate]. cbn [bind] in *. apply ok_inj in H. subst x. rewrite hxi. f_equal. unfold Rdiv. rewrite <- Rmult_assoc. f_equal. rewrite !cmod_sq.
    unfold k'. cbn [kV kA kS kT fst snd Re Im RtoC Cplus Cminus Copp Cmult Cconj]. ring.
  - intros x H. unfold cR, R_xi in *. destruct (la Jf J) as [l|]; [|discriminate]. cbn [bind] in *. apply ok_inj in H. subst x. rewrite hxi. f_equal. unfold Rdiv. rewrite <- Rmult_assoc. f_equal.
    unfold k'. cbn [kV kA kS kT fst snd Re Im RtoC Cplus Cminus Copp Cmult Cconj]. ring.
Qed.
Print Assumptions C194_cp.
(** angular momenta: ValueError exactly for forbidden changes; pure Fermi transitions have no correlations with the spin *)
Theorem C194_forbidden : forall k MF MGT J Jf m s,
  (cA k MF MGT J Jf s = Err ValueError <-> ~ (Jf = J - 1 \/ Jf = J \/ Jf = J + 1)) /\ (cB k MF MGT J Jf m s = Err ValueError <-> ~ (Jf = J - 1 \/ Jf = J \/ Jf = J + 1))
  /\ (cR k MF MGT J Jf s = Err ValueError <-> ~ (Jf = J - 1 \/ Jf = J \/ Jf = J + 1))
  /\ (Jf = J - 1 \/ Jf = J \/ Jf = J + 1 -> cA k MF 0 J Jf s = Ok 0 /\ cB k MF 0 J Jf m s = Ok 0 /\ cR k MF 0 J Jf s = Ok 0 /\ cD k MF 0 J Jf = 0).
Proof.
  intros k MF MGT J Jf m s.
  assert (L : (la Jf J = Err ValueError /\ ~ (Jf = J - 1 \/ Jf = J \/ Jf = J + 1)) \/ ((exists l, la Jf J = Ok l) /\ (Jf = J - 1 \/ Jf = J \/ Jf = J + 1))).
  { unfold la. destruct Req_EM_T as [e | n1]; [right; split; [eexists; reflexivity | tauto]|]. destruct Req_EM_T as [e | n2]; [right; split; [eexists; reflexivity | tauto]|].
    destruct Req_EM_T as [e | n3]; [right; split; [eexists; reflexivity | tauto]|]. left. split; [reflexivity | tauto]. }
  unfold cA, cB, cR, A_xi, B_xi, R_xi, cD, D_xi.
  destruct L as [(e & n) | ((l & e) & n)]; rewrite e; cbn [bind].
  - split; [split; auto|]. split; [split; auto|]. split; [split; auto|]. intro; contradiction.
  - split; [split; [discriminate | contradiction]|]. split; [split; [discriminate | contradiction]|]. split; [split; [discriminate | contradiction]|]. intros _.
    rewrite Rabs_R0. unfold Rdiv. repeat split; try (f_equal; ring); ring.
Qed.
Print Assumptions C194_forbidden.
Example bounds_meet : xi k_ex (sqrt 2) 0 <> 0 /\ xi k_ex 0 1 <> 0 /\ (exists x, cA k_ex 0 1 2 3 1 = Ok x) /\ cA k_ex 0 1 2 4 1 = Err ValueError.
Proof.
  rewrite !xi_is, (pow2_sqrt 2) by lra. unfold k_ex, N2. cbn [kV kA kS kT fst snd RtoC]. split; [lra|]. split; [lra|]. split.
  - unfold cA, A_xi, la. destruct Req_EM_T as [e | _]; [lra|]. destruct Req_EM_T as [e | _]; [lra|]. destruct Req_EM_T as [_ | n]; [cbn [bind]; eexists; reflexivity | lra].
  - apply C194_forbidden. 1: exact 0. lra.
Qed.

(** ** C195: V - A *)
Definition is_real (k : couplings) (v a : R) : Prop := kV k = RtoC v /\ kA k = RtoC a /\ kS k = RtoC 0 /\ kT k = RtoC 0.
Theorem C195_va : forall p k v l m, v <> 0 -> is_real k v (l * v) ->
  Neutron_corr p k m "a" = Some (Ok ((1 - l ^ 2) / (1 + 3 * l ^ 2)))
  /\ Neutron_corr p k m "A" = Some (Ok (- 2 * (l ^ 2 + l) / (1 + 3 * l ^ 2)))
  /\ Neutron_corr p k m "B" = Some (Ok (2 * (l ^ 2 - l) / (1 + 3 * l ^ 2)))
  /\ (forall c, In c ["b"; "D"; "R"]%string -> Neutron_corr p k m c = Some (Ok 0))
  /\ (l <> 0 -> Neutron_corr p k m "lambdaAB" = Some (Ok l))
  /\ Neutron_corr p k m "atilde" = Neutron_corr p k m "a" /\ Neutron_corr p k m "Atilde" = Neutron_corr p k m "A" /\ Neutron_corr p k m "Btilde" = Neutron_corr p k m "B".
Proof.
  intros p k v l m hv (e1 & e2 & e3 & e4).
  assert (hl := pow2_ge_0 l). assert (hv2 : v ^ 2 <> 0) by (apply pow_nonzero; exact hv).
  assert (X : n_xi k = 2 * v ^ 2 * (1 + 3 * l ^ 2)) by (rewrite n_xi_is, e1, e2, e3, e4; unfold N2; cbn [fst snd RtoC]; ring).
  assert (hx : 2 * v ^ 2 * (1 + 3 * l ^ 2) <> 0) by (apply Rmult_integral_contrapositive_currified; [apply Rmult_integral_contrapositive_currified; [lra | exact hv2] | lra]).
  assert (Hb : n_b p k = 0) by (unfold n_b, cb; rewrite n_b_is, e1, e2, e3, e4; unfold rp, Rdiv; cbn [fst snd RtoC]; ring).
  assert (HA : n_A k = Ok (- 2 * (l ^ 2 + l) / (1 + 3 * l ^ 2))).
  { unfold n_A, cA. rewrite n_A_is. cbn [bind]. fold (n_xi k). rewrite X, e1, e2, e3, e4. f_equal. unfold N2, rp. cbn [fst snd RtoC]. field. split; lra. }
  assert (HB : n_B k m = Ok (2 * (l ^ 2 - l) / (1 + 3 * l ^ 2))).
  { unfold n_B, cB. rewrite n_B_is. cbn [bind]. fold (n_xi k). rewrite X, e1, e2, e3, e4. f_equal. unfold N2, rp. cbn [fst snd RtoC]. field. split; lra. }
  assert (T : forall x, x / (1 + 0 * m) = x) by (intro; field; lra).
  cbn [Neutron_corr]. rewrite HA, HB, Hb. cbn [bind]. rewrite !T.
  split; [|split; [reflexivity | split; [reflexivity | split; [|split; [|repeat split]]]]].
  - do 2 f_equal. unfold n_a, ca. rewrite n_a_is. fold (n_xi k). rewrite X, e1, e2, e3, e4. unfold N2. cbn [fst snd RtoC]. field. split; lra.
  - intros c [<- | [<- | [<- | []]]]; cbn [Neutron_corr].
    + rewrite Hb. reflexivity.
    + unfold n_D, cD. rewrite n_D_is, e1, e2, e3, e4. do 2 f_equal. unfold ip, Rdiv. cbn [fst snd RtoC]. ring.
    + unfold n_R, cR. rewrite n_R_is, e1, e2, e3, e4. cbn [bind]. do 2 f_equal. unfold ip, Rdiv. cbn [fst snd RtoC]. ring.
  - intro l0. do 2 f_equal. field. split; [|lra]. intro e. apply l0. lra.
Qed.
Print Assumptions C195_va.
(** the Standard Model: V - A with lambda = - g_A / g_V; the universal correction CVLSM drops out of the couplings; left-handed new physics is a common factor (no effect by C194),
    and the pseudoscalar combination does not enter *)
Theorem C195_wc : forall g CVLSM D, CVLSM <> 0 -> 0 < 1 + D -> gV g <> 0 ->
  (let k := wc_eff g CVLSM D (RtoC 0) (RtoC 0) (RtoC 0) (RtoC 0) (RtoC 0) in
   is_real k (gV g * sqrt (1 + D)) (- gA g / gV g * (gV g * sqrt (1 + D))) /\ gV g * sqrt (1 + D) <> 0
   /\ forall t : C, (let k' := wc_eff g CVLSM D (RtoC CVLSM * t)%C (RtoC 0) (RtoC 0) (RtoC 0) (RtoC 0) in
        kV k' = ((RtoC 1 + t) * kV k)%C /\ kA k' = ((RtoC 1 + t) * kA k)%C /\ kS k' = RtoC 0 /\ kT k' = RtoC 0))
  /\ forall CVL CVR CSR CSL CT x : C, (let k := wc_eff g CVLSM D CVL CVR CSR CSL CT in let k' := wc_eff g CVLSM D CVL CVR (CSR - x)%C (CSL + x)%C CT in
        kV k' = kV k /\ kA k' = kA k /\ kS k' = kS k /\ kT k' = kT k).
Proof.
  intros g c D hc hD hg. cbv zeta. split; [split; [|split]|].
  - unfold is_real, wc_eff, get_wceff_fccc_std. cbn [kV kA kS kT].
    split; [|split; [|split]]; apply injective_projections; cbn [fst snd RtoC Cplus Cminus Copp Cmult]; field; auto.
  - apply Rmult_integral_contrapositive_currified; [exact hg | apply Rgt_not_eq, sqrt_lt_R0; exact hD].
  - intros [t t']. unfold wc_eff, get_wceff_fccc_std. cbn [kV kA kS kT].
    split; [|split; [|split]]; apply injective_projections; cbn [fst snd RtoC Cplus Cminus Copp Cmult]; field; auto.
  - intros CVL CVR CSR CSL CT [x x']. unfold wc_eff, get_wceff_fccc_std. cbn [kV kA kS kT].
    split; [reflexivity | split; [reflexivity | split; [|reflexivity]]]. apply injective_projections; cbn [fst snd RtoC Cplus Cminus Copp Cmult]; ring.
Qed.
Print Assumptions C195_wc.
Theorem C195_sm : forall p g CVLSM D m, CVLSM <> 0 -> 0 < 1 + D -> gV g <> 0 -> gA g <> 0 ->
  Neutron_corr p (wc_eff g CVLSM D (RtoC 0) (RtoC 0) (RtoC 0) (RtoC 0) (RtoC 0)) m "lambdaAB" = Some (Ok (- gA g / gV g)).
Proof.
  intros p g c D m hc hD hg ha. destruct (C195_wc g c D hc hD hg) as ((H & N & _) & _).
  refine (proj1 (proj2 (proj2 (proj2 (proj2 (C195_va p _ _ _ m N H))))) _). intro e. apply ha.
  apply (f_equal (fun x => - x * gV g)) in e. replace (- (- gA g / gV g) * gV g) with (gA g) in e by (field; exact hg). lra.
Qed.
Print Assumptions C195_sm.

(** ** C196: Ft values and the lifetime *)
Definition no_nuisance (p : bpar) : Prop := b_dRp p = 0 /\ b_dNSA p = 0 /\ b_dNSE p = 0.
Definition cpre (p : bpar) : R := b_GF p ^ 2 / 2 * Cmod (b_Vud p) ^ 2.
Lemma pre_is p : Cmod (RtoC (b_GF p / sqrt 2) * b_Vud p)%C ^ 2 = cpre p.
Proof.
  unfold cpre. rewrite !cmod_sq. cbn [fst snd RtoC Cmult]. assert (S : sqrt 2 ^ 2 = 2) by (apply pow2_sqrt; lra). assert (sqrt 2 <> 0) by (apply Rgt_not_eq, sqrt_lt_R0; lra).
  transitivity (b_GF p ^ 2 / sqrt 2 ^ 2 * (fst (b_Vud p) ^ 2 + snd (b_Vud p) ^ 2)); [field; assumption | rewrite S; reflexivity].
Qed.
Definition dnuis (p : bpar) (Z : nat) (Q : R) : R := 1 + b_dRp p * INR Z ^ 2 + b_dNSA p + b_dNSE p * Q.
(** K / (4 (|V|^2 + |S|^2)) / |pre|^2, corrected by the Fierz term: b = - 2 gamma Re(V S* ) / (|V|^2 + |S|^2) *)
Theorem C196_formula : forall p k A Z m Q, In (A, (Z, m, Q)) nuclei_superallowed -> N2 (kV k) + N2 (kS k) <> 0 ->
  Ft_superallowed p k A = Ok (dnuis p Z Q * (2 * PI ^ 3 * ln 2 / b_me p ^ 5) / (4 * (N2 (kV k) + N2 (kS k)))
    / (1 - 2 * sqrt (1 - b_alpha p ^ 2 * INR Z ^ 2) * rp (kV k) (kS k) / (N2 (kV k) + N2 (kS k)) * m) / (b_GF p ^ 2 / 2 * Cmod (b_Vud p) ^ 2)).
Proof.
  intros p k A Z m Q H hx. assert (E : assoc A nuclei_superallowed = Ok (Z, m, Q)).
  { unfold nuclei_superallowed in H. repeat (destruct H as [H | H]; [injection H as <- <- <- <-; reflexivity|]). destruct H. }
  unfold Ft_superallowed. rewrite E. cbn [bind]. cbv zeta. rewrite pre_is. unfold cb, b_xi. cbv zeta. rewrite xi_is, !sq_abs, (pow2_sqrt 2) by lra.
  replace (Re (kV k * Cconj (kS k))%C) with (rp (kV k) (kS k)) by (unfold rp; cbn [fst snd Re Im Cmult Cconj]; ring).
  f_equal. unfold Kbeta, dnuis, cpre. set (g := sqrt _). set (W := N2 (kV k) + N2 (kS k)) in *.
  replace (2 * (2 * W + 0 ^ 2 * (N2 (kA k) + N2 (kT k)))) with (4 * W) by ring.
  replace (-1 * 2 * g * 2 * (2 * rp (kV k) (kS k) + 0 ^ 2 * Re (kA k * Cconj (kT k))%C) / (4 * W) * m) with (- (2 * g * rp (kV k) (kS k) / W * m)) by (field; exact hx).
  rewrite Rmult_1_r. reflexivity.
Qed.
Print Assumptions C196_formula.
Lemma nuclei_me A Z m Q : In (A, (Z, m, Q)) nuclei_superallowed -> 0 < m < 1 /\ 0 < Q /\ (0 < Z)%nat.
Proof.
  intro H. unfold nuclei_superallowed in H. repeat (destruct H as [H | H]; [injection H as <- <- <- <-; split; [lra | split; [lra | repeat constructor]]|]). destruct H.
Qed.
(** positive for all couplings; without scalar currents and nuisance parameters the same for all nuclei, and b = 0 *)
Theorem C196_positive : forall p k A Z m Q, In (A, (Z, m, Q)) nuclei_superallowed -> N2 (kV k) + N2 (kS k) <> 0 -> 0 < b_me p -> b_GF p <> 0 -> b_Vud p <> RtoC 0 -> 0 < dnuis p Z Q ->
  exists F, Ft_superallowed p k A = Ok F /\ 0 < F.
Proof.
  intros p k A Z m Q H hx hm hg hv hd. eexists. split; [apply (C196_formula _ _ _ _ _ _ H hx)|].
  destruct (nuclei_me _ _ _ _ H) as ((m1 & m2) & _). assert (hV := N2_pos (kV k)). assert (hS := N2_pos (kS k)).
  set (W := N2 (kV k) + N2 (kS k)) in *. assert (hW : 0 < W) by (destruct (Rtotal_order 0 W) as [h | [h | h]]; [exact h | exfalso; apply hx; symmetry; exact h | exfalso; unfold W in h; lra]). set (g := sqrt (1 - b_alpha p ^ 2 * INR Z ^ 2)).
  assert (hg1 : 0 <= g <= 1).
  { split; [apply sqrt_pos|]. unfold g. rewrite <- sqrt_1 at 2. apply sqrt_le_1_alt. pose proof (Rmult_le_pos _ _ (pow2_ge_0 (b_alpha p)) (pow2_ge_0 (INR Z))). lra. }
  assert (B : 2 * g * rp (kV k) (kS k) / W * m < 1).
  { assert (b1 : 2 * rp (kV k) (kS k) / W <= 1) by (apply Rle_div_l; [exact hW | generalize (rp_bound (kV k) (kS k)); unfold W; lra]).
    replace (2 * g * rp (kV k) (kS k) / W * m) with (2 * rp (kV k) (kS k) / W * (g * m)) by (field; lra).
    assert (0 <= g * m) by (apply Rmult_le_pos; lra). assert (g * m <= 1 * m) by (apply Rmult_le_compat_r; lra).
    assert (X := Rmult_le_compat_r _ _ _ H0 b1). lra. }
  assert (P : 0 < b_GF p ^ 2 / 2 * Cmod (b_Vud p) ^ 2).
  { apply Rmult_lt_0_compat; [|apply pow_lt, Cmod_gt_0; exact hv]. assert (0 < b_GF p ^ 2) by (apply Rsqr_pos_lt in hg; rewrite Rsqr_pow2 in hg; exact hg). lra. }
  assert (L2 : 0 < ln 2) by (rewrite <- ln_1; apply ln_increasing; lra). assert (P3 : 0 < PI ^ 3) by (apply pow_lt, PI_RGT_0). assert (M5 : 0 < b_me p ^ 5) by (apply pow_lt, hm).
  assert (N : 0 < 2 * PI ^ 3 * ln 2 / b_me p ^ 5) by (apply Rdiv_lt_0_compat; [apply Rmult_lt_0_compat; lra | exact M5]).
  apply Rdiv_lt_0_compat; [|exact P]. apply Rdiv_lt_0_compat; [|lra]. apply Rdiv_lt_0_compat; [|lra]. apply Rmult_lt_0_compat; assumption.
Qed.
Print Assumptions C196_positive.
Theorem C196_universal : forall p k A B, kS k = RtoC 0 -> no_nuisance p -> N2 (kV k) <> 0 -> In A (map fst nuclei_superallowed) -> In B (map fst nuclei_superallowed) ->
  Ft_superallowed p k A = Ft_superallowed p k B.
Proof.
  intros p k A B hS (n1 & n2 & n3) hv HA HB. apply in_map_iff in HA, HB. destruct HA as ((A' & (Z & m) & Q) & <- & HA). destruct HB as ((B' & (Z' & m') & Q') & <- & HB). cbn [fst].
  assert (z : N2 (kS k) = 0) by (rewrite hS; unfold N2; cbn [fst snd RtoC]; ring).
  rewrite (C196_formula _ _ _ _ _ _ HA), (C196_formula _ _ _ _ _ _ HB) by lra. unfold dnuis, rp. rewrite hS, n1, n2, n3. cbn [fst snd RtoC].
  assert (u : forall (z : nat) (q : R), 1 + 0 * INR z ^ 2 + 0 + 0 * q = 1) by (intros; ring).
  assert (w : forall g W x : R, 1 - 2 * g * (fst (kV k) * 0 + snd (kV k) * 0) / W * x = 1) by (intros; unfold Rdiv; ring).
  rewrite !u, !w. reflexivity.
Qed.
Print Assumptions C196_universal.
(** the lifetime of the neutron and Ft: tau ln2 f (1 + R) (1 + 3 lambda^2) = 2 Ft; V_ud and G_F drop out *)
Theorem C196_master : forall p k v l m A F, is_real k v (l * v) -> v <> 0 -> no_nuisance p -> b_fn p <> 0 -> 1 + b_Rp p <> 0 -> Ft_superallowed p k A = Ok F ->
  tau_n p k m * ln 2 * b_fn p * (1 + b_Rp p) * (1 + 3 * l ^ 2) = 2 * F.
Proof.
  intros p k v l m A F (e1 & e2 & e3 & e4) hv (n1 & n2 & n3) hf hR HF.
  assert (HA : exists Z m' Q, In (A, (Z, m', Q)) nuclei_superallowed).
  { unfold Ft_superallowed, assoc in HF. destruct (find _ _) as [[A' ((Z & m') & Q)]|] eqn:Ef; [|discriminate]. apply find_some in Ef. destruct Ef as (I1 & I2). apply String.eqb_eq in I2. cbn [fst] in I2. subst A'.
    exists Z, m', Q. exact I1. }
  destruct HA as (Z & m' & Q & HA).
  assert (hv2 : 0 < v ^ 2) by (apply Rsqr_pos_lt in hv; rewrite Rsqr_pow2 in hv; exact hv).
  assert (w : N2 (kV k) + N2 (kS k) = v ^ 2) by (rewrite e1, e3; unfold N2; cbn [fst snd RtoC]; ring).
  rewrite (C196_formula _ _ _ _ _ _ HA) in HF by lra. apply ok_inj in HF. subst F. rewrite w. unfold dnuis. rewrite n1, n2, n3.
  assert (r0 : rp (kV k) (kS k) = 0) by (rewrite e3; unfold rp; cbn [fst snd RtoC]; ring). rewrite r0.
  unfold tau_n. cbv zeta. rewrite pre_is. unfold n_b, cb. rewrite n_b_is, e1, e2, e3, e4. unfold rp. cbn [fst snd RtoC].
  assert (X : n_xi k = 2 * v ^ 2 * (1 + 3 * l ^ 2)) by (rewrite n_xi_is, e1, e2, e3, e4; unfold N2; cbn [fst snd RtoC]; ring). rewrite X.
  set (y := xi k 1 (sqrt 3)). replace (4 * (v * 0 + 0 * 0 + 3 * (l * v * 0 + 0 * 0)) / y * m) with 0 by (unfold Rdiv; ring).
  set (g := sqrt (1 - b_alpha p ^ 2 * INR Z ^ 2)). replace (2 * g * 0 / v ^ 2 * m') with 0 by (unfold Rdiv; ring).
  unfold Kbeta, cpre. set (G := b_GF p ^ 2 / 2 * Cmod (b_Vud p) ^ 2).
  assert (L2 : 0 < ln 2) by (rewrite <- ln_1; apply ln_increasing; lra). pose proof (pow2_ge_0 l).
  unfold Rdiv. rewrite !Rmult_0_l, !Rplus_0_r, Rminus_0_r, !Rinv_1, !Rmult_1_l, !Rmult_1_r. 
  generalize (/ G) (/ b_me p ^ 5). intros. field. repeat split; lra.
Qed.
Print Assumptions C196_master.
Definition p_ex : bpar := Bpar (1 / 2000) (1 / 137) 1 (RtoC (97 / 100)) 0 0 0 (17 / 10) (4 / 100).
Definition k_va : couplings := Cpl (RtoC 1) (RtoC (- (5 / 4) * 1)) (RtoC 0) (RtoC 0) (RtoC 0).
Example master_meets : is_real k_va 1 (- (5 / 4) * 1) /\ no_nuisance p_ex /\ (exists F, Ft_superallowed p_ex k_va "34Ar" = Ok F /\ 0 < F) /\ 0 < dnuis p_ex 18 6.
Proof.
  split; [repeat split|]. split; [repeat split|]. assert (D : 0 < dnuis p_ex 18 6) by (unfold dnuis, p_ex; cbn [b_dRp b_dNSA b_dNSE]; lra). split; [|exact D].
  eapply (C196_positive p_ex k_va "34Ar" 18 (53 / 250) (606183 / 100 / 1000)).
  - unfold nuclei_superallowed. do 5 right. left. reflexivity.
  - unfold k_va, N2. cbn [kV kS fst snd RtoC]. lra.
  - unfold p_ex. cbn [b_me]. lra.
  - unfold p_ex. cbn [b_GF]. lra.
  - unfold p_ex. cbn [b_Vud]. intro e. apply (f_equal fst) in e. cbn in e. lra.
  - unfold dnuis, p_ex. cbn [b_dRp b_dNSA b_dNSE]. lra.
Qed.

(** ** C197: elements and isotopes *)
Theorem C197_elements : (forall Z s, el_symbol Z = Ok s <-> el_Z s = Ok Z) /\ (forall Z, (exists s, el_symbol Z = Ok s) <-> (Z <= 118)%nat).
Proof.
  assert (T1 : forallb (fun e => match el_Z (snd e) with Ok n => Nat.eqb n (fst e) | _ => false end) elements_table = true) by (vm_compute; reflexivity).
  assert (T2 : forallb (fun e => match el_symbol (fst e) with Ok n => String.eqb n (snd e) | _ => false end) elements_table = true) by (vm_compute; reflexivity).
  rewrite forallb_forall in T1, T2. split; [intros Z s; split; intro H|].
  - unfold el_symbol in H. destruct (find _ elements_table) as [e|] eqn:E; [|discriminate]. apply find_some in E. destruct E as (I1 & I2). apply Nat.eqb_eq in I2. subst Z.
    apply ok_inj in H. subst s. specialize (T1 e I1). destruct (el_Z (snd e)) as [n|]; [|discriminate]. apply Nat.eqb_eq in T1. subst n. reflexivity.
  - unfold el_Z in H. destruct (find _ elements_table) as [e|] eqn:E; [|discriminate]. apply find_some in E. destruct E as (I1 & I2). apply String.eqb_eq in I2. subst s.
    apply ok_inj in H. subst Z. specialize (T2 e I1). destruct (el_symbol (fst e)) as [n|]; [|discriminate]. apply String.eqb_eq in T2. subst n. reflexivity.
  - intro Z. assert (M : map fst elements_table = seq 0 119) by (vm_compute; reflexivity). split.
    + intros (s & H). unfold el_symbol in H. destruct (find _ elements_table) as [e|] eqn:E; [|discriminate]. apply find_some in E. destruct E as (I1 & I2). apply Nat.eqb_eq in I2. subst Z.
      assert (I : In (fst e) (seq 0 119)) by (rewrite <- M; apply in_map; exact I1). apply in_seq in I. apply Nat.lt_succ_r. exact (proj2 I).
    + intro h. assert (I : In Z (seq 0 119)) by (apply in_seq; split; [apply Nat.le_0_l | apply Nat.lt_succ_r; exact h]). rewrite <- M in I. apply in_map_iff in I. destruct I as (e & <- & I).
      specialize (T2 e I). destruct (el_symbol (fst e)) as [n|]; [exists n; reflexivity | discriminate].
Qed.
Print Assumptions C197_elements.
(** the table of nuclei: the charge is that of the element; the daughter has the same mass number and one proton less *)
Theorem C197_daughters : forall A, In A (map fst nuclei_superallowed) -> exists n iso sym dsym Z,
  A = String.append n (String.append iso sym) /\ (iso = ""%string \/ iso = "m"%string) /\ In (A, S Z) (map (fun e => (fst e, fst (fst (snd e)))) nuclei_superallowed)
  /\ el_symbol (S Z) = Ok sym /\ get_daughter A = Ok (String.append n dsym) /\ el_symbol Z = Ok dsym.
Proof.
  intros A H. set (L := [("10", "", "C", "B", 5); ("14", "", "O", "N", 7); ("22", "", "Mg", "Na", 11); ("26", "m", "Al", "Mg", 12); ("34", "", "Cl", "S", 16); ("34", "", "Ar", "Cl", 17); ("38", "m", "K", "Ar", 18);
    ("38", "", "Ca", "K", 19); ("42", "", "Sc", "Ca", 20); ("46", "", "V", "Ti", 22); ("50", "", "Mn", "Cr", 24); ("54", "", "Co", "Fe", 26); ("62", "", "Ga", "Zn", 30); ("74", "", "Rb", "Kr", 36)]%string%nat).
  assert (E : map (fun e => (fst e, fst (fst (snd e)))) nuclei_superallowed = map (fun '(n, iso, sym, d, Z) => (String.append n (String.append iso sym), S Z)) L) by (unfold nuclei_superallowed, L; reflexivity).
  assert (F : map fst nuclei_superallowed = map (fun '(n, iso, sym, d, Z) => String.append n (String.append iso sym)) L) by (unfold nuclei_superallowed, L; reflexivity).
  rewrite F in H. rewrite E. apply in_map_iff in H. destruct H as ([[[[n iso] sym] d] Z] & <- & H).
  exists n, iso, sym, d, Z. split; [reflexivity|]. split; [|split; [apply in_map_iff; exists (n, iso, sym, d, Z); split; [reflexivity | exact H]|]].
  - unfold L in H. repeat (destruct H as [H | H]; [injection H as <- <- <- <- <-; (left; reflexivity) || (right; reflexivity)|]). destruct H.
  - clear E F. unfold L in H. repeat (destruct H as [H | H]; [injection H as <- <- <- <- <-; split; [|split]; vm_compute; reflexivity|]). destruct H.
Qed.
Print Assumptions C197_daughters.

(** C195: how the coefficients of the effective theory enter the couplings: the right-handed current with the same sign in V and the opposite sign in A, the scalar coefficients as their sum,
    the tensor with 4 g_T; the left-handed coefficient relative to the Standard Model with the universal correction *)
Theorem C195_couplings : forall g CVLSM D CVL CVR CSR CSL CT, CVLSM <> 0 -> 0 < 1 + D ->
  let k := wc_eff g CVLSM D CVL CVR CSR CSL CT in let rho := sqrt (1 + D) in
  kV k = (RtoC (gV g) * (RtoC rho * (RtoC 1 + CVL / RtoC CVLSM) + CVR))%C /\ kA k = (RtoC (- gA g) * (RtoC rho * (RtoC 1 + CVL / RtoC CVLSM) - CVR))%C
  /\ kS k = (RtoC (gS g) * (CSL + CSR))%C /\ kP k = (RtoC (gP g) * (CSL - CSR))%C /\ kT k = (RtoC (4 * gT g) * CT)%C.
Proof.
  intros g c D CVL CVR CSR CSL CT hc hD. cbv zeta. unfold wc_eff, get_wceff_fccc_std. cbn [kV kA kS kP kT].
  assert (E : CVL = (CVL / RtoC c * RtoC c)%C). { field. intro e. apply hc. now apply RtoC_inj. }
  revert E. generalize (CVL / RtoC c)%C. intros u ->. destruct u as [u u'], CVR as [v v'], CSR as [x x'], CSL as [w w'], CT as [t t'].
  repeat split; apply injective_projections; cbn [fst snd RtoC Cplus Cminus Copp Cmult]; field; auto.
Qed.
Print Assumptions C195_couplings.
Example C195_couplings_meets : (1 : R) <> 0 /\ 0 < 1 + 2 / 100. Proof. split; lra. Qed.
