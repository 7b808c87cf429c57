(** * Proofs for the neutral-current observables: pole subtraction, linear functionals of coefficients, bins *)
From Coq Require Import Reals Lra.
From Coquelicot Require Import Coquelicot.
From Verif Require Import Base Basics_Model Basics_Proofs Angular_Model Angular_Spec Angular_Proofs Angular_Proofs2 Angular_Proofs3 Angular_Proofs4 Angular_Proofs5 Angular_Proofs6 Angular_Proofs7 Angular_Proofs8 Angular_Proofs9 Decays_Model Decays_Spec Decays_Proofs Decays_Proofs2 Decays_Proofs3 Decays_Proofs4 Decays_Proofs5 DecaysNC_Model DecaysNC_Spec.
Local Open Scope R_scope.

(** ** the pole *)
Lemma pole_int (c a b : R) : 0 < a -> 0 < b -> int (fun x => c / x) a b /\ RInt (fun x => c / x) a b = c * ln (b / a).
Proof.
  intros A B.
  assert (I : is_RInt (fun x => c / x) a b (c * ln b - c * ln a)).
  { apply (is_RInt_derive (fun x => c * ln x)).
    - intros x X. assert (x0 : 0 < x) by (destruct (Rle_dec a b) as [L | L]; [rewrite Rmin_left in X by exact L | rewrite Rmin_right in X by lra]; lra).
      auto_derive; [exact x0 | field; lra].
    - intros x X. assert (x0 : 0 < x) by (destruct (Rle_dec a b) as [L | L]; [rewrite Rmin_left in X by exact L | rewrite Rmin_right in X by lra]; lra).
      apply (rc_div x (fun _ => c) (fun t => t)); [apply rc_const | apply rc_id | lra]. }
  split; [exists (c * ln b - c * ln a); exact I |]. rewrite (is_RInt_unique _ _ _ _ I). unfold Rdiv. rewrite ln_mult, ln_Rinv by (try apply Rinv_0_lt_compat; assumption). toR. ring.
Qed.
Lemma pole_is (f : R -> R) (a b : R) : (0 < a -> 0 < b) -> int f a b -> nintegrate_pole f a b = RInt f a b.
Proof.
  intros P I. unfold nintegrate_pole, nintegrate. destruct (Rle_dec a (1 / 10)) as [h | h]; [| reflexivity]. destruct (Rlt_dec 0 a) as [A | A]; [| reflexivity].
  cbv zeta. destruct (pole_int (f a * a) a b A (P A)) as (K & E). rewrite (RI_minus f (fun x => f a * a / x)) by assumption. rewrite E. toR. ring.
Qed.

(** ** linear functionals of coefficients *)
Definition lin (c : jkey -> R) (J : jkey -> R) : R :=
  c J1s * J J1s + c J1c * J J1c + c J2s * J J2s + c J2c * J J2c + c J3 * J J3 + c J4 * J J4 + c J5 * J J5 + c J6s * J J6s + c J6c * J J6c + c J7 * J J7 + c J8 * J J8 + c J9 * J J9.
Section Lin.
  Variables (J : R -> jkey -> R) (a b : R).
  Hypothesis (P : forall k, int (fun q2 => J q2 k) a b).
  Lemma lin_int (c : jkey -> R) : int (fun q2 => lin c (J q2)) a b.
  Proof using P. unfold lin. ilin P. Qed.
  Ltac irw Q := lazymatch goal with
    | |- RInt (fun t => @?f t + @?g t) ?a ?b = _ => rewrite (RI_plus f g a b); [apply f_equal2; cbv beta; [irw Q | irw Q] | cbv beta; ilin Q | cbv beta; ilin Q]
    | |- RInt (fun t => ?c * @?f t) ?a ?b = _ => rewrite (RI_scal f a b c); [reflexivity | cbv beta; ilin Q]
    end.
  Lemma lin_RInt (c : jkey -> R) : RInt (fun q2 => lin c (J q2)) a b = lin c (over J a b).
  Proof using P. unfold lin, over. irw P. Qed.
  Lemma lin_pos (c : jkey -> R) : a <= b -> (forall q2, a < q2 < b -> 0 <= lin c (J q2)) -> 0 <= lin c (over J a b).
  Proof using P. intros L H. rewrite <- lin_RInt. apply RI_pos; [exact L | apply lin_int | exact H]. Qed.
End Lin.
(** functions of two sets of coefficients *)
Definition linear (f : (jkey -> R) -> (jkey -> R) -> R) : Prop := exists c c', forall J J', f J J' = lin c J + lin c' J'.
Section Lin2.
  Variables (J J' : R -> jkey -> R) (a b : R).
  Hypotheses (P : forall k, int (fun q2 => J q2 k) a b) (P' : forall k, int (fun q2 => J' q2 k) a b).
  Lemma linear_int f : linear f -> int (fun q2 => f (J q2) (J' q2)) a b.
  Proof using P P'.
    intros (c & c' & E). apply (ex_RInt_ext (fun q2 => lin c (J q2) + lin c' (J' q2))); [intros; symmetry; apply E |].
    apply (int_plus (fun q2 => lin c (J q2)) (fun q2 => lin c' (J' q2))); now apply lin_int.
  Qed.
  Lemma linear_RInt f : linear f -> RInt (fun q2 => f (J q2) (J' q2)) a b = f (over J a b) (over J' a b).
  Proof using P P'.
    intros (c & c' & E). rewrite (ext_R _ (fun q2 => lin c (J q2) + lin c' (J' q2))) by (intros; apply E).
    rewrite (RI_plus (fun q2 => lin c (J q2)) (fun q2 => lin c' (J' q2))) by now apply lin_int. rewrite !lin_RInt by assumption. symmetry. apply E.
  Qed.
  Lemma linear_pos f : linear f -> a <= b -> (forall q2, a < q2 < b -> 0 <= f (J q2) (J' q2)) -> 0 <= f (over J a b) (over J' a b).
  Proof using P P'. intros F L H. rewrite <- linear_RInt by exact F. apply RI_pos; [exact L | now apply linear_int | exact H]. Qed.
End Lin2.
Definition only (k : jkey) (x : R) : jkey -> R := fun i => match k, i with
  | J1s, J1s | J1c, J1c | J2s, J2s | J2c, J2c | J3, J3 | J4, J4 | J5, J5 | J6s, J6s | J6c, J6c | J7, J7 | J8, J8 | J9, J9 => x | _, _ => 0 end.
Lemma lin_only (k : jkey) (x : R) J : lin (only k x) J = x * J k.
Proof. unfold lin, only. destruct k; ring. Qed.
Lemma linear_S (k : jkey) (x : R) : linear (fun J J' => x * (J k + J' k)).
Proof. exists (only k x), (only k x). intros. rewrite !lin_only. ring. Qed.
Lemma linear_A (k : jkey) (x : R) : linear (fun J J' => x * (J k - J' k)).
Proof. exists (only k x), (only k (- x)). intros. rewrite !lin_only. ring. Qed.
Lemma linear_ext f g : (forall J J', g J J' = f J J') -> linear f -> linear g.
Proof. intros E (c & c' & L). exists c, c'. intros. rewrite E. apply L. Qed.
Lemma linear_plus f g x y : linear f -> linear g -> linear (fun J J' => x * f J J' + y * g J J').
Proof. intros (c & c' & L) (e & e' & M). exists (fun k => x * c k + y * e k), (fun k => x * c' k + y * e' k). intros. rewrite L, M. unfold lin. ring. Qed.
Definition rate_c : jkey -> R := fun k => match k with J1s => 3 / 2 | J1c => 3 / 4 | J2s => - 1 / 2 | J2c => - 1 / 4 | _ => 0 end.
Lemma lin_rate J : lin rate_c J = dGdq2 J. Proof. unfold lin, rate_c, dGdq2. field. Qed.
Lemma linear_rate x y : linear (fun J J' => x * dGdq2 J + y * dGdq2 J').
Proof. exists (fun k => x * rate_c k), (fun k => y * rate_c k). intros. rewrite <- !lin_rate. unfold lin. ring. Qed.

(** ** bins *)
Section Bin.
  Variable d : vll.
  Hypothesis W : vll_ok d.
  Lemma range_d : 0 < thr d <= top d.
  Proof using W.
    destruct W as (m & L & _). unfold thr, top. split; [apply Rmult_lt_0_compat; [lra | apply pow_lt; exact m] |].
    replace (4 * l_ml d ^ 2) with ((2 * l_ml d) ^ 2) by ring. apply pow_incr. lra.
  Qed.
  Lemma phys_d (q2 : R) : thr d <= q2 -> physical q2 (l_ml d) (l_ml d).
  Proof using W. intros L. pose proof range_d as r. destruct W as (m & _). unfold physical. refine (conj _ (conj _ (conj _ _))); try lra. unfold thr in *. replace ((l_ml d + l_ml d) ^ 2) with (4 * l_ml d ^ 2) by ring. exact L. Qed.
  Lemma J_part (a b : R) : thr d <= a -> a <= b -> b <= top d -> (forall k, int (fun q2 => Jv d q2 k) a b) /\ (forall k, int (fun q2 => Jv' d q2 k) a b).
  Proof using W. intros L1 L2 L3. destruct W as (_ & _ & _ & _ & I). split; intros k; apply (int_part _ (thr d) (top d)); try assumption; apply (I k). Qed.
  Lemma range_cases (a b : R) : a <= b -> (empty_bin d a b = true /\ Rmin b (top d) <= Rmax a (thr d)) \/ (empty_bin d a b = false /\ Rmax a (thr d) < Rmin b (top d)).
  Proof using. intros L. unfold empty_bin, q2max_allowed, q2min_allowed. fold (thr d) (top d). rewrite (Rmin_comm (top d)), (Rmax_comm (thr d)). destruct (Rle_dec _ _); [left | right]; split; try reflexivity; lra. Qed.
  Lemma bin_val (a b : R) f : linear f -> empty_bin d a b = false -> Rmax a (thr d) < Rmin b (top d) ->
    binned d (jfunc d f) a b = RInt (fun q2 => f (Jv d q2) (Jv' d q2)) (Rmax a (thr d)) (Rmin b (top d)).
  Proof using W.
    intros F E L. pose proof range_d as r. unfold binned, q2min_allowed, q2max_allowed. fold (thr d) (top d). rewrite (Rmin_comm (top d)), (Rmax_comm (thr d)).
    assert (m1 := Rmax_r a (thr d)). assert (m2 := Rmin_r b (top d)). assert (L' : Rmax a (thr d) <= Rmin b (top d)) by lra.
    destruct (J_part _ _ m1 L' m2) as (I & I'). change (jfunc d f) with (fun q2 => f (Jv d q2) (Jv' d q2)). apply pole_is; [intros; lra | now apply linear_int].
  Qed.
  Lemma bin_over (a b : R) f : linear f -> empty_bin d a b = false -> Rmax a (thr d) < Rmin b (top d) ->
    binned d (jfunc d f) a b = f (over (Jv d) (Rmax a (thr d)) (Rmin b (top d))) (over (Jv' d) (Rmax a (thr d)) (Rmin b (top d))).
  Proof using W.
    intros F E L. rewrite bin_val by assumption. assert (m1 := Rmax_r a (thr d)). assert (m2 := Rmin_r b (top d)). assert (L' : Rmax a (thr d) <= Rmin b (top d)) by lra.
    destruct (J_part _ _ m1 L' m2) as (I & I'). now apply linear_RInt.
  Qed.
  (** clipped functions *)
  Lemma obs_clip f q2 : BVll_obs d f q2 = clip (thr d) (top d) (fun q2 => f (Jv d q2) (Jv' d q2)) q2.
  Proof using. unfold BVll_obs, allowed, clip. fold (thr d) (top d). destruct (Rlt_dec q2 _); [reflexivity |]. destruct (Rlt_dec _ q2); reflexivity. Qed.
  Lemma full_int f : linear f -> int (fun q2 => f (Jv d q2) (Jv' d q2)) (thr d) (top d).
  Proof using W. intros F. destruct W as (_ & _ & _ & _ & I). apply linear_int; [intros k; apply (I k) | intros k; apply (I k) | exact F]. Qed.
  Lemma obs_int_any f a b : linear f -> int (BVll_obs d f) a b.
  Proof using W.
    intros F. assert (Q : forall x y, x <= y -> int (BVll_obs d f) x y).
    { intros x y L. apply (ex_RInt_ext (clip (thr d) (top d) (fun q2 => f (Jv d q2) (Jv' d q2)))); [intros; symmetry; apply obs_clip |]. apply clip_integrable; [exact L | intros _; now apply full_int]. }
    destruct (Rle_dec a b) as [L | L]; [now apply Q |]. apply ex_RInt_swap, Q. lra.
  Qed.
  Lemma obs_RInt f a b : linear f -> a <= b -> RInt (BVll_obs d f) a b = if empty_bin d a b then 0 else binned d (jfunc d f) a b.
  Proof using W.
    intros F L. rewrite (ext_R _ (clip (thr d) (top d) (fun q2 => f (Jv d q2) (Jv' d q2)))) by (intros; apply obs_clip).
    destruct (clip_int (thr d) (top d) a b _ L (clip_exists (thr d) (top d) a b _ L (fun _ => full_int f F))) as (_ & E). rewrite E.
    destruct (from_upto (thr d) (top d) a b L) as ((u1 & u2) & u3). destruct (range_cases a b L) as [(e & h) | (e & h)]; rewrite e.
    - assert (Q : from (thr d) a b = upto (thr d) (top d) a b) by (destruct (overlap (thr d) (top d) a b L) as [O | (O1 & O2 & O3 & O4)]; [exact O | lra]). rewrite Q, RInt_point. reflexivity.
    - rewrite bin_val by assumption. assert (m2 := Rmin_l b (top d)). unfold upto, from. rewrite (Rmin_right b (Rmax a (thr d))) by lra. rewrite (Rmax_right (Rmax a (thr d))) by lra. reflexivity.
  Qed.
  Lemma obs_int_is f a b : linear f -> a <= b -> (b - a) * BVll_obs_int d f a b = RInt (BVll_obs d f) a b.
  Proof using W.
    intros F L. rewrite obs_RInt by assumption. unfold BVll_obs_int. destruct (range_cases a b L) as [(e & h) | (e & h)]; rewrite e; [ring |].
    assert (m1 := Rmax_l a (thr d)). assert (m2 := Rmin_l b (top d)). field. lra.
  Qed.
End Bin.
