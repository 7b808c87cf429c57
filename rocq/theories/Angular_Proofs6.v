(** * Proofs for the angular distributions: symmetries *)
From Coq Require Import Reals Lra Psatz.
From Coquelicot Require Import Complex.
From Verif Require Import Base Basics_Model Basics_Proofs Angular_Model Angular_Spec Angular_Proofs Angular_Proofs2 Angular_Proofs4.
Local Open Scope R_scope.

(** the twelve coefficients as functions of the amplitudes for definite lepton helicities *)
Definition coeff_of (fp fm n m : hel -> C) (S P : C) (k : jkey) : R :=
  match k with
  | J1s => 3 / 16 * (fst (fp Hpl .* fp Hpl) + fst (fm Hpl .* fm Hpl) + fst (fp Hmi .* fp Hmi) + fst (fm Hmi .* fm Hmi))
           + (fst (n Hpl .* n Hpl) + fst (n Hmi .* n Hmi) + fst (m Hpl .* m Hpl) + fst (m Hmi .* m Hmi)) / 8
  | J2s => 1 / 16 * (fst (fp Hpl .* fp Hpl) + fst (fm Hpl .* fm Hpl) + fst (fp Hmi .* fp Hmi) + fst (fm Hmi .* fm Hmi))
           - (fst (n Hpl .* n Hpl) + fst (n Hmi .* n Hmi) + fst (m Hpl .* m Hpl) + fst (m Hmi .* m Hmi)) / 8
  | J1c => 1 / 2 * (fst (n H0 .* n H0) + fst (m H0 .* m H0)) + 1 / 4 * (fst (fp H0 .* fp H0) + fst (fm H0 .* fm H0)) + fst (S .* S) + fst (P .* P)
  | J2c => 1 / 2 * (fst (n H0 .* n H0) + fst (m H0 .* m H0)) - 1 / 4 * (fst (fp H0 .* fp H0) + fst (fm H0 .* fm H0))
  | J6s => 1 / 4 * (fst (fp Hpl .* fp Hpl) - fst (fm Hpl .* fm Hpl) - (fst (fp Hmi .* fp Hmi) - fst (fm Hmi .* fm Hmi)))
  | J6c => 2 * fst (n H0 .* S) + 2 * fst (m H0 .* P)
  | J3 => - 1 / 4 * (fst (fp Hpl .* fp Hmi) + fst (fm Hpl .* fm Hmi)) + 1 / 2 * (fst (n Hpl .* n Hmi) + fst (m Hpl .* m Hmi))
  | J9 => 1 / 4 * (snd (fp Hpl .* fp Hmi) + snd (fm Hpl .* fm Hmi)) - 1 / 2 * (snd (n Hpl .* n Hmi) + snd (m Hpl .* m Hmi))
  | J4 => - 1 / 8 * (fst (fp Hpl .* fp H0) + fst (fm Hpl .* fm H0) + (fst (fp H0 .* fp Hmi) + fst (fm H0 .* fm Hmi)))
          + 1 / 4 * (fst (n Hpl .* n H0) + fst (n H0 .* n Hmi) + fst (m Hpl .* m H0) + fst (m H0 .* m Hmi))
  | J8 => 1 / 8 * (snd (fp Hpl .* fp H0) + snd (fm Hpl .* fm H0) + (snd (fp H0 .* fp Hmi) + snd (fm H0 .* fm Hmi)))
          - 1 / 4 * (snd (n Hpl .* n H0) + snd (n H0 .* n Hmi) + snd (m Hpl .* m H0) + snd (m H0 .* m Hmi))
  | J5 => - 1 / 4 * (fst (fp Hpl .* fp H0) - fst (fm Hpl .* fm H0) - (fst (fp H0 .* fp Hmi) - fst (fm H0 .* fm Hmi)))
          + 1 / 2 * (fst (n Hpl .* S) + fst (S .* n Hmi) + fst (m Hpl .* P) + fst (P .* m Hmi))
  | J7 => 1 / 4 * (snd (fp Hpl .* fp H0) - snd (fm Hpl .* fm H0) - (snd (fp H0 .* fp Hmi) - snd (fm H0 .* fm Hmi)))
          - 1 / 2 * (snd (n Hpl .* S) + snd (S .* n Hmi) + snd (m Hpl .* P) + snd (P .* m Hmi))
  end.
Lemma coefficients (H : amps) (q2 mB mV m1 m2 : R) (k : jkey) : physical q2 m1 m2 ->
  angularcoeffs_general_v H q2 mB mV m1 m2 k = 16 / 3 * normalisation q2 mB mV m1 m2 *
  coeff_of (flip q2 m1 m2 H 1) (flip q2 m1 m2 H (-1)) (same_v q2 m1 m2 H) (same_a q2 m1 m2 H) (scalar q2 m1 m2 H) (pseudo q2 m1 m2 H) k.
Proof.
  intros Ph. destruct (kin _ _ _ Ph) as (s & i & q & E1 & E2 & K). destruct Ph as (P1 & P2 & _ & _).
  pose proof (coeff_c_sum H q2 mB mV m1 m2 s i q E1 E2 P1 P2 K) as c1. pose proof (coeff_c_diff H q2 mB mV m1 m2 s i q E1 E2 P1 P2 K) as c2.
  pose proof (coeff_6c H q2 mB mV m1 m2 s i q E1 E2 P1 P2 K) as c3. pose proof (coeff_s_diff H q2 mB mV m1 m2 s i q E1 E2 P1 P2 K) as c4.
  pose proof (coeff_2s H q2 mB mV m1 m2 s i q E1 E2 P1 P2 K) as c5. pose proof (coeff_6s H q2 mB mV m1 m2 s i q E1 E2 P1 P2 K) as c6.
  pose proof (coeff_3 H q2 mB mV m1 m2 s i q E1 E2 P1 P2 K) as c7. pose proof (coeff_9 H q2 mB mV m1 m2 s i q E1 E2 P1 P2 K) as c8.
  pose proof (coeff_4 H q2 mB mV m1 m2 s i q E1 E2 P1 P2 K) as c9. pose proof (coeff_8 H q2 mB mV m1 m2 s i q E1 E2 P1 P2 K) as c10.
  pose proof (coeff_5 H q2 mB mV m1 m2 s i q E1 E2 P1 P2 K) as c11. pose proof (coeff_7 H q2 mB mV m1 m2 s i q E1 E2 P1 P2 K) as c12.
  rewrite norm_is in c1, c2, c3, c4, c5, c6, c7, c8, c9, c10, c11, c12. clear K P1 P2 s i q E1 E2.
  set (J := angularcoeffs_general_v H q2 mB mV m1 m2) in *. set (N := normalisation q2 mB mV m1 m2) in *. clearbody J N.
  set (fp := flip q2 m1 m2 H 1) in *. set (fm := flip q2 m1 m2 H (-1)) in *. set (n := same_v q2 m1 m2 H) in *. set (m := same_a q2 m1 m2 H) in *.
  set (S' := scalar q2 m1 m2 H) in *. set (P' := pseudo q2 m1 m2 H) in *. clearbody fp fm n m S' P'.
  repeat (rewrite fst_plus in * || rewrite fst_minus in * || rewrite snd_plus in * || rewrite snd_minus in *).
  destruct k; cbn [coeff_of]; lra.
Qed.

Definition sign (k : jkey) : R := match k with J7 | J8 | J9 => -1 | _ => 1 end.
Definition pflip (l : hel) : hel := match l with H0 => H0 | Hpl => Hmi | Hmi => Hpl end.
Lemma bil_conj_conj (a b : C) : fst ((- Cconj a)%C .* (- Cconj b)%C) = fst (a .* b) /\ snd ((- Cconj a)%C .* (- Cconj b)%C) = - snd (a .* b).
Proof. destruct a, b. unfold bil, Cmult, Cconj, Copp. cbn [fst snd]. split; ring. Qed.
Lemma bil_opp_opp (a b : C) : (- a)%C .* (- b)%C = a .* b.
Proof. unfold bil. rewrite Cconj_opp. ring. Qed.
Lemma bil_opp_l (a b : C) : (- a)%C .* b = (- (a .* b))%C.
Proof. unfold bil. ring. Qed.
Lemma bil_opp_r (a b : C) : a .* (- b)%C = (- (a .* b))%C.
Proof. unfold bil. rewrite Cconj_opp. ring. Qed.
(** ** complex conjugation of all amplitudes *)
Lemma coeff_conj fp fm n m S P k :
  coeff_of (fun l => - Cconj (fp l))%C (fun l => - Cconj (fm l))%C (fun l => - Cconj (n l))%C (fun l => - Cconj (m l))%C (- Cconj S)%C (- Cconj P)%C k
  = sign k * coeff_of fp fm n m S P k.
Proof.
  destruct k; cbn [coeff_of sign]; rewrite ?(fun a b => proj1 (bil_conj_conj a b)), ?(fun a b => proj2 (bil_conj_conj a b)); lra.
Qed.
(** ** reflection: exchange of the helicities *)
Lemma coeff_parity fp fm n m S P k :
  coeff_of (fun l => - fm (pflip l))%C (fun l => - fp (pflip l))%C (fun l => - n (pflip l))%C (fun l => m (pflip l))%C (- S)%C P k
  = sign k * coeff_of fp fm n m S P k.
Proof.
  destruct k; cbn [coeff_of sign pflip]; rewrite ?bil_opp_opp;
  repeat match goal with
  | |- context [fst (?f Hmi .* ?f Hpl)] => rewrite (proj1 (bil_swap (f Hpl) (f Hmi)))
  | |- context [snd (?f Hmi .* ?f Hpl)] => rewrite (proj2 (bil_swap (f Hpl) (f Hmi)))
  | |- context [fst (?f Hmi .* ?f H0)] => rewrite (proj1 (bil_swap (f H0) (f Hmi)))
  | |- context [snd (?f Hmi .* ?f H0)] => rewrite (proj2 (bil_swap (f H0) (f Hmi)))
  | |- context [fst (?f H0 .* ?f Hpl)] => rewrite (proj1 (bil_swap (f Hpl) (f H0)))
  | |- context [snd (?f H0 .* ?f Hpl)] => rewrite (proj2 (bil_swap (f Hpl) (f H0)))
  | |- context [fst (S .* ?f Hpl)] => rewrite (proj1 (bil_swap (f Hpl) S))
  | |- context [snd (S .* ?f Hpl)] => rewrite (proj2 (bil_swap (f Hpl) S))
  | |- context [fst (?f Hmi .* S)] => rewrite (proj1 (bil_swap S (f Hmi)))
  | |- context [snd (?f Hmi .* S)] => rewrite (proj2 (bil_swap S (f Hmi)))
  | |- context [fst (P .* ?f Hpl)] => rewrite (proj1 (bil_swap (f Hpl) P))
  | |- context [snd (P .* ?f Hpl)] => rewrite (proj2 (bil_swap (f Hpl) P))
  | |- context [fst (?f Hmi .* P)] => rewrite (proj1 (bil_swap P (f Hmi)))
  | |- context [snd (?f Hmi .* P)] => rewrite (proj2 (bil_swap P (f Hmi)))
  end; lra.
Qed.
(** ** rescaling *)
Lemma coeff_scale (c : C) fp fm n m S P k :
  coeff_of (fun l => c * fp l)%C (fun l => c * fm l)%C (fun l => c * n l)%C (fun l => c * m l)%C (c * S)%C (c * P)%C k
  = Cmod c ^ 2 * coeff_of fp fm n m S P k.
Proof.
  assert (E : forall a b : C, (c * a)%C .* (c * b)%C = (RtoC (Cmod c ^ 2) * (a .* b))%C).
  { intros a b. unfold bil. rewrite Cconj_mult. replace (c * a * (Cconj c * Cconj b))%C with ((c * Cconj c) * (a * Cconj b))%C by ring. f_equal.
    rewrite cmod_sq. destruct c. unfold Cmult, Cconj, RtoC. cbn [fst snd]. f_equal; ring. }
  destruct k; cbn [coeff_of]; rewrite !E, ?fst_real, ?snd_real; unfold Rdiv; ring.
Qed.
Lemma coeff_ext fp fm n m S P fp' fm' n' m' S' P' k : (forall l, fp l = fp' l) -> (forall l, fm l = fm' l) -> (forall l, n l = n' l) -> (forall l, m l = m' l) -> S = S' -> P = P' ->
  coeff_of fp fm n m S P k = coeff_of fp' fm' n' m' S' P' k.
Proof. intros A B C D E F. destruct k; cbn [coeff_of]; rewrite ?A, ?B, ?C, ?D, ?E, ?F; reflexivity. Qed.

Section Amplitudes.
  Variables (q2 m1 m2 : R).
  Lemma flip_scale (c : C) (H : amps) s l : flip q2 m1 m2 (amps_scale c H) s l = (c * flip q2 m1 m2 H s l)%C.
  Proof. unfold flip, amps_scale. cbn [aV aA aT aTt]. ring. Qed.
  Lemma same_v_scale (c : C) (H : amps) l : same_v q2 m1 m2 (amps_scale c H) l = (c * same_v q2 m1 m2 H l)%C.
  Proof. unfold same_v, amps_scale. cbn [aV aA aT aTt]. ring. Qed.
  Lemma same_a_scale (c : C) (H : amps) l : same_a q2 m1 m2 (amps_scale c H) l = (c * same_a q2 m1 m2 H l)%C.
  Proof. unfold same_a, amps_scale. cbn [aV aA aT aTt]. ring. Qed.
  Lemma scalar_scale (c : C) (H : amps) : scalar q2 m1 m2 (amps_scale c H) = (c * scalar q2 m1 m2 H)%C.
  Proof. unfold scalar, amps_scale. cbn [aS]. ring. Qed.
  Lemma pseudo_scale (c : C) (H : amps) : pseudo q2 m1 m2 (amps_scale c H) = (c * pseudo q2 m1 m2 H)%C.
  Proof. unfold pseudo, amps_scale. cbn [aP]. ring. Qed.
  (** amplitudes of the reflected and of the conjugate decay *)
  Record reflected (H H' : amps) : Prop := {
    r_V : forall l, aV H' l = (- aV H (pflip l))%C; r_A : forall l, aA H' l = aA H (pflip l); r_S : aS H' = (- aS H)%C; r_P : aP H' = aP H;
    r_T : forall l, aT H' l = aT H (pflip l); r_Tt : forall l, aTt H' l = (- aTt H (pflip l))%C }.
  Record conjugated (H H' : amps) : Prop := {
    c_V : forall l, aV H' l = (- Cconj (aV H l))%C; c_A : forall l, aA H' l = (- Cconj (aA H l))%C; c_S : aS H' = (- Cconj (aS H))%C; c_P : aP H' = (- Cconj (aP H))%C;
    c_T : forall l, aT H' l = Cconj (aT H l); c_Tt : forall l, aTt H' l = Cconj (aTt H l) }.
End Amplitudes.
Ltac cc := unfold Cminus; repeat first [rewrite Cconj_plus | rewrite Cconj_opp | rewrite Cconj_mult | rewrite Cconj_i | rewrite Cconj_real].
Lemma J_scale (c : C) (H : amps) (q2 mB mV m1 m2 : R) (k : jkey) : physical q2 m1 m2 ->
  angularcoeffs_general_v (amps_scale c H) q2 mB mV m1 m2 k = Cmod c ^ 2 * angularcoeffs_general_v H q2 mB mV m1 m2 k.
Proof.
  intros Ph. rewrite !coefficients by assumption. rewrite (coeff_ext _ _ _ _ _ _ (fun l => c * flip q2 m1 m2 H 1 l)%C (fun l => c * flip q2 m1 m2 H (-1) l)%C (fun l => c * same_v q2 m1 m2 H l)%C
    (fun l => c * same_a q2 m1 m2 H l)%C (c * scalar q2 m1 m2 H)%C (c * pseudo q2 m1 m2 H)%C); [rewrite coeff_scale; ring | intros; apply flip_scale | intros; apply flip_scale | intros; apply same_v_scale | intros; apply same_a_scale | apply scalar_scale | apply pseudo_scale].
Qed.
Lemma J_conj (H H' : amps) (q2 mB mV m1 m2 : R) (k : jkey) : physical q2 m1 m2 -> conjugated H H' ->
  angularcoeffs_general_v H' q2 mB mV m1 m2 k = sign k * angularcoeffs_general_v H q2 mB mV m1 m2 k.
Proof.
  intros Ph [cV cA cS cP cT cTt]. rewrite !coefficients by assumption.
  rewrite (coeff_ext _ _ _ _ _ _ (fun l => - Cconj (flip q2 m1 m2 H 1 l))%C (fun l => - Cconj (flip q2 m1 m2 H (-1) l))%C (fun l => - Cconj (same_v q2 m1 m2 H l))%C
    (fun l => - Cconj (same_a q2 m1 m2 H l))%C (- Cconj (scalar q2 m1 m2 H))%C (- Cconj (pseudo q2 m1 m2 H))%C); [rewrite coeff_conj; ring | ..].
  - intros l. unfold flip. rewrite cV, cA, cT, cTt. cc. ring.
  - intros l. unfold flip. rewrite cV, cA, cT, cTt. cc. ring.
  - intros l. unfold same_v. rewrite cV, cTt. cc. ring.
  - intros l. unfold same_a. rewrite cA, cT. cc. ring.
  - unfold scalar. rewrite cS. cc. ring.
  - unfold pseudo. rewrite cP. cc. ring.
Qed.
Lemma J_reflected (H H' : amps) (q2 mB mV m1 m2 : R) (k : jkey) : physical q2 m1 m2 -> reflected H H' ->
  angularcoeffs_general_v H' q2 mB mV m1 m2 k = sign k * angularcoeffs_general_v H q2 mB mV m1 m2 k.
Proof.
  intros Ph [cV cA cS cP cT cTt]. rewrite !coefficients by assumption.
  rewrite (coeff_ext _ _ _ _ _ _ (fun l => - flip q2 m1 m2 H (-1) (pflip l))%C (fun l => - flip q2 m1 m2 H 1 (pflip l))%C (fun l => - same_v q2 m1 m2 H (pflip l))%C
    (fun l => same_a q2 m1 m2 H (pflip l))%C (- scalar q2 m1 m2 H)%C (pseudo q2 m1 m2 H)); [rewrite coeff_parity; ring | ..].
  - intros l. unfold flip. rewrite cV, cA, cT, cTt, mone_C. ring.
  - intros l. unfold flip. rewrite cV, cA, cT, cTt, mone_C. ring.
  - intros l. unfold same_v. rewrite cV, cTt. ring.
  - intros l. unfold same_a. rewrite cA, cT. ring.
  - unfold scalar. rewrite cS. ring.
  - unfold pseudo. rewrite cP. ring.
Qed.
Lemma parity_amps (q2 mB mV mqh mql m1 m2 : R) ff wc pre :
  reflected (helicity_amps_v q2 mB mV mqh mql m1 m2 ff wc pre) (helicity_amps_v q2 mB mV mqh mql m1 m2 ff (parity wc) pre).
Proof.
  split; unfold helicity_amps_v; cbv zeta; cbn [aV aA aP aS aT aTt parity].
  - intros []; cbn [pflip]; unfold Cdiv; ring.
  - intros []; cbn [pflip]; unfold Cdiv; ring.
  - unfold Cdiv; ring.
  - unfold Cdiv; ring.
  - intros []; cbn [pflip]; unfold Cdiv; ring.
  - intros []; cbn [pflip]; unfold Cdiv; ring.
Qed.
Lemma Cconj_div_real (z : C) (r : R) : Cconj (z / RtoC r)%C = (Cconj z / RtoC r)%C.
Proof. unfold Cdiv. rewrite Cconj_mult. f_equal. unfold Cinv, Cconj, RtoC. cbn [fst snd]. f_equal. unfold Rdiv. ring. Qed.
Lemma conj_amps (q2 mB mV mqh mql m1 m2 : R) ff wc pre :
  conjugated (helicity_amps_v q2 mB mV mqh mql m1 m2 ff wc pre) (helicity_amps_v q2 mB mV mqh mql m1 m2 ff (fun k => Cconj (wc k)) (Cconj pre)).
Proof.
  split; unfold helicity_amps_v; cbv zeta; cbn [aV aA aP aS aT aTt].
  - intros []; unfold Cminus; repeat first [rewrite Cconj_div_real | rewrite Cconj_plus | rewrite Cconj_opp | rewrite Cconj_mult | rewrite Cconj_i | rewrite Cconj_real]; unfold Cdiv; ring.
  - intros []; unfold Cminus; repeat first [rewrite Cconj_div_real | rewrite Cconj_plus | rewrite Cconj_opp | rewrite Cconj_mult | rewrite Cconj_i | rewrite Cconj_real]; unfold Cdiv; ring.
  - unfold Cminus; repeat first [rewrite Cconj_div_real | rewrite Cconj_plus | rewrite Cconj_opp | rewrite Cconj_mult | rewrite Cconj_i | rewrite Cconj_real]; unfold Cdiv; ring.
  - unfold Cminus; repeat first [rewrite Cconj_div_real | rewrite Cconj_plus | rewrite Cconj_opp | rewrite Cconj_mult | rewrite Cconj_i | rewrite Cconj_real]; unfold Cdiv; ring.
  - intros []; unfold Cminus; repeat first [rewrite Cconj_div_real | rewrite Cconj_plus | rewrite Cconj_opp | rewrite Cconj_mult | rewrite Cconj_i | rewrite Cconj_real]; unfold Cdiv; ring.
  - intros []; unfold Cminus; repeat first [rewrite Cconj_div_real | rewrite Cconj_plus | rewrite Cconj_opp | rewrite Cconj_mult | rewrite Cconj_i | rewrite Cconj_real]; unfold Cdiv; ring.
Qed.
