(** * Lemmas for B_s -> V l l *)
From Coq Require Import Reals Lra.
From Coquelicot Require Import Coquelicot.
From Verif Require Import Base Basics_Model Basics_Spec Basics_Proofs Angular_Model Angular_Spec Angular_Proofs Angular_Proofs2 Angular_Proofs3 Angular_Proofs4 Angular_Proofs5 Angular_Proofs6 Angular_Proofs7 Angular_Proofs8 Angular_Proofs9 Decays_Model Decays_Spec Decays_Proofs DecaysNC_Model DecaysNC_Spec DecaysBs_Spec.
Local Open Scope R_scope.

(** ** Time dependence *)
Lemma bil_time (a g q : C) (x y x' y' : C) : Cmod q = 1 ->
  ((a * x + q * g * y)%C .* (a * x' + q * g * y')%C + (a * y + g / q * x)%C .* (a * y' + g / q * x')%C)%C
  = (RtoC (Cmod a ^ 2 + Cmod g ^ 2) * (x .* x' + y .* y') + RtoC (2 * fst (g .* a)) * ((x + q * y)%C .* (x' + q * y')%C - x .* x' - y .* y'))%C.
Proof.
  intros U. assert (Q : (q * Cconj q)%C = RtoC 1).
  { assert (E := cmod_sq q). rewrite U in E. destruct q as [u v]. cbn [fst snd] in E. unfold Cconj, Cmult, RtoC. cbn [fst snd]. f_equal; lra. }
  assert (q0 : q <> RtoC 0) by (intros z; rewrite z, Cmod_0 in U; lra).
  assert (Iq : (/ q)%C = Cconj q). { transitivity (/ q * (q * Cconj q))%C; [rewrite Q; ring | field; exact q0]. }
  assert (N : forall z : C, RtoC (Cmod z ^ 2) = (z * Cconj z)%C).
  { intros z. rewrite cmod_sq. destruct z as [u v]. unfold Cconj, Cmult, RtoC. cbn [fst snd]. f_equal; ring. }
  assert (D : RtoC (2 * fst (g .* a)) = (g * Cconj a + a * Cconj g)%C).
  { unfold bil. destruct g as [u v], a as [s t]. unfold Cconj, Cmult, Cplus, RtoC. cbn [fst snd]. f_equal; ring. }
  rewrite D, RtoC_plus, !N. unfold Cdiv. rewrite Iq. unfold bil. rewrite !Cconj_plus, !Cconj_mult, !Cconj_conj.
  assert (R : forall u v : C, (q * u * (Cconj q * v))%C = (u * v)%C) by (intros u v; transitivity ((q * Cconj q) * (u * v))%C; [ring | rewrite Q; ring]).
  transitivity ((a * Cconj a) * (x * Cconj x' + y * Cconj y') + (g * Cconj g) * ((q * Cconj q) * (x * Cconj x' + y * Cconj y'))
    + (a * Cconj g + g * Cconj a) * (q * y * Cconj x' + Cconj q * x * Cconj y'))%C; [ring |].
  rewrite Q. transitivity ((a * Cconj a + g * Cconj g) * (x * Cconj x' + y * Cconj y') + (g * Cconj a + a * Cconj g) * (q * y * Cconj x' + Cconj q * x * Cconj y' + ((q * Cconj q) * (y * Cconj y') - y * Cconj y')))%C; [rewrite Q; ring | ring].
Qed.
Lemma coeff_time (a g q : C) fp fm n m S P fp' fm' n' m' S' P' k : Cmod q = 1 ->
  coeff_of (fun l => a * fp l + q * g * fp' l)%C (fun l => a * fm l + q * g * fm' l)%C (fun l => a * n l + q * g * n' l)%C (fun l => a * m l + q * g * m' l)%C (a * S + q * g * S')%C (a * P + q * g * P')%C k
  + coeff_of (fun l => a * fp' l + g / q * fp l)%C (fun l => a * fm' l + g / q * fm l)%C (fun l => a * n' l + g / q * n l)%C (fun l => a * m' l + g / q * m l)%C (a * S' + g / q * S)%C (a * P' + g / q * P)%C k
  = (Cmod a ^ 2 + Cmod g ^ 2) * (coeff_of fp fm n m S P k + coeff_of fp' fm' n' m' S' P' k)
  + 2 * fst (g .* a) * (coeff_of (fun l => fp l + q * fp' l)%C (fun l => fm l + q * fm' l)%C (fun l => n l + q * n' l)%C (fun l => m l + q * m' l)%C (S + q * S')%C (P + q * P')%C k
      - coeff_of fp fm n m S P k - coeff_of fp' fm' n' m' S' P' k).
Proof.
  intros U. set (A := Cmod a ^ 2 + Cmod g ^ 2). set (B := 2 * fst (g .* a)).
  assert (F : forall x y x' y' : C, fst ((a * x + q * g * y)%C .* (a * x' + q * g * y')%C) = A * (fst (x .* x') + fst (y .* y')) + B * (fst ((x + q * y)%C .* (x' + q * y')%C) - fst (x .* x') - fst (y .* y')) - fst ((a * y + g / q * x)%C .* (a * y' + g / q * x')%C)).
  { intros x y x' y'. assert (E := bil_time a g q x y x' y' U). fold A B in E. apply (f_equal fst) in E.
    set (u := (a * x + q * g * y)%C .* _) in *. set (v := (a * y + g / q * x)%C .* _) in *. set (w := (x + q * y)%C .* _) in *. set (c := x .* x') in *. set (d := y .* y') in *. clearbody A B u v w c d.
    unfold Cminus, Cplus, Copp, Cmult, RtoC in E. cbn [fst snd] in E. lra. }
  assert (G : forall x y x' y' : C, snd ((a * x + q * g * y)%C .* (a * x' + q * g * y')%C) = A * (snd (x .* x') + snd (y .* y')) + B * (snd ((x + q * y)%C .* (x' + q * y')%C) - snd (x .* x') - snd (y .* y')) - snd ((a * y + g / q * x)%C .* (a * y' + g / q * x')%C)).
  { intros x y x' y'. assert (E := bil_time a g q x y x' y' U). fold A B in E. apply (f_equal snd) in E.
    set (u := (a * x + q * g * y)%C .* _) in *. set (v := (a * y + g / q * x)%C .* _) in *. set (w := (x + q * y)%C .* _) in *. set (c := x .* x') in *. set (d := y .* y') in *. clearbody A B u v w c d.
    unfold Cminus, Cplus, Copp, Cmult, RtoC in E. cbn [fst snd] in E. lra. }
  clearbody A B. destruct k; cbn [coeff_of]; rewrite ?F, ?G; lra.
Qed.
Lemma J_time (H H' : amps) (a g q : C) (q2 mB mV m1 m2 : R) (k : jkey) : physical q2 m1 m2 -> Cmod q = 1 ->
  let J X := angularcoeffs_general_v X q2 mB mV m1 m2 k in
  J (amps_add (amps_scale a H) (q * g)%C H') + J (amps_add (amps_scale a H') (g / q)%C H)
  = (Cmod a ^ 2 + Cmod g ^ 2) * (J H + J H') + 2 * fst (g .* a) * (J (amps_add H q H') - J H - J H').
Proof.
  intros Ph U J. unfold J. rewrite !coefficients by assumption. set (N := 16 / 3 * normalisation q2 mB mV m1 m2).
  rewrite (coeff_ext (flip q2 m1 m2 (amps_add (amps_scale a H) (q * g)%C H') 1) _ _ _ _ _
    (fun l => a * flip q2 m1 m2 H 1 l + q * g * flip q2 m1 m2 H' 1 l)%C (fun l => a * flip q2 m1 m2 H (-1) l + q * g * flip q2 m1 m2 H' (-1) l)%C
    (fun l => a * same_v q2 m1 m2 H l + q * g * same_v q2 m1 m2 H' l)%C (fun l => a * same_a q2 m1 m2 H l + q * g * same_a q2 m1 m2 H' l)%C
    (a * scalar q2 m1 m2 H + q * g * scalar q2 m1 m2 H')%C (a * pseudo q2 m1 m2 H + q * g * pseudo q2 m1 m2 H')%C k)
    by (intros; rewrite ?flip_add, ?same_v_add, ?same_a_add, ?scalar_add, ?pseudo_add, ?flip_scale, ?same_v_scale, ?same_a_scale, ?scalar_scale, ?pseudo_scale; reflexivity).
  rewrite (coeff_ext (flip q2 m1 m2 (amps_add (amps_scale a H') (g / q)%C H) 1) _ _ _ _ _
    (fun l => a * flip q2 m1 m2 H' 1 l + g / q * flip q2 m1 m2 H 1 l)%C (fun l => a * flip q2 m1 m2 H' (-1) l + g / q * flip q2 m1 m2 H (-1) l)%C
    (fun l => a * same_v q2 m1 m2 H' l + g / q * same_v q2 m1 m2 H l)%C (fun l => a * same_a q2 m1 m2 H' l + g / q * same_a q2 m1 m2 H l)%C
    (a * scalar q2 m1 m2 H' + g / q * scalar q2 m1 m2 H)%C (a * pseudo q2 m1 m2 H' + g / q * pseudo q2 m1 m2 H)%C k)
    by (intros; rewrite ?flip_add, ?same_v_add, ?same_a_add, ?scalar_add, ?pseudo_add, ?flip_scale, ?same_v_scale, ?same_a_scale, ?scalar_scale, ?pseudo_scale; reflexivity).
  rewrite (coeff_ext (flip q2 m1 m2 (amps_add H q H') 1) _ _ _ _ _
    (fun l => flip q2 m1 m2 H 1 l + q * flip q2 m1 m2 H' 1 l)%C (fun l => flip q2 m1 m2 H (-1) l + q * flip q2 m1 m2 H' (-1) l)%C
    (fun l => same_v q2 m1 m2 H l + q * same_v q2 m1 m2 H' l)%C (fun l => same_a q2 m1 m2 H l + q * same_a q2 m1 m2 H' l)%C
    (scalar q2 m1 m2 H + q * scalar q2 m1 m2 H')%C (pseudo q2 m1 m2 H + q * pseudo q2 m1 m2 H')%C k)
    by (intros; rewrite ?flip_add, ?same_v_add, ?same_a_add, ?scalar_add, ?pseudo_add; reflexivity).
  rewrite <- Rmult_plus_distr_l, coeff_time by exact U. ring.
Qed.
(** the probabilities of the two time evolutions *)
Lemma g_sum (x y t : R) : Cmod (g_plus x y t) ^ 2 + Cmod (g_minus x y t) ^ 2 = (exp (- (1 + y) * t) + exp (- (1 - y) * t)) / 2 /\
  2 * fst (g_minus x y t .* g_plus x y t) = (exp (- (1 + y) * t) - exp (- (1 - y) * t)) / 2.
Proof.
  assert (E1 : exp (- (1 + y) * t) = exp (- t / 2) ^ 2 * exp (- y * t / 2) ^ 2) by (rewrite <- !Rsqr_pow2; unfold Rsqr; rewrite <- !exp_plus; f_equal; field).
  assert (E2 : exp (- (1 - y) * t) = exp (- t / 2) ^ 2 * exp (y * t / 2) ^ 2) by (rewrite <- !Rsqr_pow2; unfold Rsqr; rewrite <- !exp_plus; f_equal; field).
  rewrite E1, E2, !cmod_sq. unfold g_plus, g_minus, bil. set (e := exp (- t / 2)). set (u := exp (- y * t / 2)). set (v := exp (y * t / 2)). rewrite !Cdiv_real by lra.
  pose proof (sin2_cos2 (x * t / 2)) as SC. unfold Rsqr in SC. set (c := cos (x * t / 2)) in *. set (s := sin (x * t / 2)) in *. clearbody e u v c s.
  unfold Cconj, Cminus, Copp, Cplus, Cmult, RtoC. cbn [fst snd]. assert (s2 : s ^ 2 = 1 - c ^ 2) by (simpl; lra).
  split; [field_simplify; rewrite s2; field | field_simplify; rewrite s2; field].
Qed.
(** ** Integrals over time *)
Lemma exp_int (c T : R) : c <> 0 -> RInt (fun t => exp (- c * t)) 0 T = (1 - exp (- c * T)) / c /\ ex_RInt (fun t => exp (- c * t)) 0 T.
Proof.
  intros C0. assert (D : forall x, is_derive (fun t => - exp (- c * t) / c) x (exp (- c * x))) by (intros x; auto_derive; [exact I | field; exact C0]).
  assert (K : forall x, continuous (fun t => exp (- c * t)) x) by (intros x; apply (ex_derive_continuous (fun t => exp (- c * t))); auto_derive; exact I).
  split; [transitivity (- exp (- c * T) / c - - exp (- c * 0) / c); [exact (RInt_der (fun t => - exp (- c * t) / c) (fun t => exp (- c * t)) 0 T D K) | rewrite Rmult_0_r, exp_0; toR; field; exact C0] |].
  apply (ex_RInt_continuous (V := R_CompleteNormedModule)). intros x _. apply K.
Qed.
Lemma exp_lim (c : R) : 0 < c -> is_lim (fun T => exp (- c * T)) p_infty 0.
Proof.
  intros P. apply (is_lim_comp exp (fun T => - c * T) p_infty 0 m_infty); [apply is_lim_exp_m | | exists 0; intros; discriminate].
  replace m_infty with (Rbar_mult (- c) p_infty); [apply is_lim_scal_l, is_lim_id |]. unfold Rbar_mult, Rbar_mult'. destruct (Rle_dec 0 (- c)) as [h | h]; [exfalso; lra | reflexivity].
Qed.
Lemma time_lim (y A B : R) : -1 < y < 1 ->
  is_lim (fun t0 => RInt (fun t => (exp (- (1 + y) * t) + exp (- (1 - y) * t)) / 2 * A + (exp (- (1 + y) * t) - exp (- (1 - y) * t)) / 2 * B) 0 t0) p_infty (1 / (1 - y ^ 2) * A - y / (1 - y ^ 2) * B).
Proof.
  intros Y. assert (p1 : 1 + y <> 0) by lra. assert (p2 : 1 - y <> 0) by lra. assert (l1 : 0 < 1 + y) by lra. assert (l2 : 0 < 1 - y) by lra.
  apply (is_lim_ext (fun T => (A + B) / 2 / (1 + y) * (1 - exp (- (1 + y) * T)) + (A - B) / 2 / (1 - y) * (1 - exp (- (1 - y) * T)))).
  - intros T. destruct (exp_int (1 + y) T p1) as (E1 & I1). destruct (exp_int (1 - y) T p2) as (E2 & I2).
    rewrite (ext_R (fun t => (exp (- (1 + y) * t) + exp (- (1 - y) * t)) / 2 * A + _) (fun t => (A + B) / 2 * exp (- (1 + y) * t) + (A - B) / 2 * exp (- (1 - y) * t))) by (intros; toR; field).
    rewrite (RI_plus (fun t => (A + B) / 2 * exp (- (1 + y) * t)) (fun t => (A - B) / 2 * exp (- (1 - y) * t))) by (apply int_scal; assumption).
    rewrite (RI_scal (fun t => exp (- (1 + y) * t))) by exact I1. rewrite (RI_scal (fun t => exp (- (1 - y) * t))) by exact I2. rewrite E1, E2. toR. field. split; assumption.
  - replace (1 / (1 - y ^ 2) * A - y / (1 - y ^ 2) * B) with ((A + B) / 2 / (1 + y) * (1 - 0) + (A - B) / 2 / (1 - y) * (1 - 0)).
    2: { field. repeat split; try assumption. replace (1 - y ^ 2) with ((1 + y) * (1 - y)) by ring. intros z. apply Rmult_integral in z. lra. }
    assert (K : forall c d, 0 < c -> is_lim (fun T => d * (1 - exp (- c * T))) p_infty (d * (1 - 0))).
    { intros c d P. apply (is_lim_scal_l (fun T => 1 - exp (- c * T)) d p_infty (Finite (1 - 0))). apply (is_lim_minus' (fun _ => 1) (fun T => exp (- c * T)) p_infty 1 0); [apply is_lim_const | now apply exp_lim]. }
    exact (is_lim_plus' _ _ p_infty _ _ (K _ ((A + B) / 2 / (1 + y)) l1) (K _ ((A - B) / 2 / (1 - y)) l2)).
Qed.
(** ** CP conjugation of the final state *)
Definition cp_sign (k : jkey) : R := match k with J5 | J6s | J6c | J8 | J9 => -1 | _ => 1 end.
Lemma coeff_reversed fp fm n S P k :
  coeff_of (fun l => - fp (reversed l))%C (fun l => - fm (reversed l))%C (fun l => - n (reversed l))%C (fun _ => RtoC 0) S (- P)%C k
  = cp_sign k * coeff_of fp fm n (fun _ => RtoC 0) S P k.
Proof.
  destruct k; cbn [coeff_of cp_sign reversed]; rewrite ?bil_opp_opp, ?bil_opp_l, ?bil_opp_r, ?bil_0l, ?bil_0r;
  rewrite ?fst_opp, ?snd_opp;
  repeat match goal with
  | |- context [fst (?f Hmi .* ?f Hpl)] => rewrite (proj1 (bil_swap (f Hpl) (f Hmi)))
  | |- context [snd (?f Hmi .* ?f Hpl)] => rewrite (proj2 (bil_swap (f Hpl) (f Hmi)))
  | |- context [fst (?f Hmi .* ?f H0)] => rewrite (proj1 (bil_swap (f H0) (f Hmi)))
  | |- context [snd (?f Hmi .* ?f H0)] => rewrite (proj2 (bil_swap (f H0) (f Hmi)))
  | |- context [fst (?f H0 .* ?f Hpl)] => rewrite (proj1 (bil_swap (f Hpl) (f H0)))
  | |- context [snd (?f H0 .* ?f Hpl)] => rewrite (proj2 (bil_swap (f Hpl) (f H0)))
  | |- context [fst (S .* ?f Hpl)] => rewrite (proj1 (bil_swap (f Hpl) S))
  | |- context [snd (S .* ?f Hpl)] => rewrite (proj2 (bil_swap (f Hpl) S))
  | |- context [fst (?f Hmi .* S)] => rewrite (proj1 (bil_swap S (f Hmi)))
  | |- context [snd (?f Hmi .* S)] => rewrite (proj2 (bil_swap S (f Hmi)))
  end; change (fst (RtoC 0)) with 0; change (snd (RtoC 0)) with 0; lra.
Qed.
