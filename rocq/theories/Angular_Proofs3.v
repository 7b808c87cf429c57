(** * Proofs for the angular distributions: integrals over the angles *)
From Coq Require Import Reals Lra.
From Coquelicot Require Import Coquelicot.
From Verif Require Import Base Basics_Model Basics_Proofs Angular_Model Angular_Spec Angular_Proofs Angular_Proofs2.
Local Open Scope R_scope.

Lemma RInt_der (F f : R -> R) (a b : R) : (forall x, is_derive F x (f x)) -> (forall x, continuous f x) -> RInt f a b = F b - F a.
Proof. intros D C. apply is_RInt_unique. change (F b - F a) with (minus (F b) (F a)). apply (is_RInt_derive F f); intros x _; auto. Qed.
Ltac toR := match goal with |- @eq _ ?a ?b => change (@eq R a b) end.
Lemma sin_sq (x : R) : sin x * sin x = 1 - cos x * cos x.
Proof. pose proof (sin2_cos2 x) as E; unfold Rsqr in E. lra. Qed.
Lemma ext_R (f g : R -> R) (a b : R) : (forall x, f x = g x) -> RInt f a b = RInt g a b.
Proof. intros H. apply RInt_ext. intros x _. apply H. Qed.
Lemma int_K (A B c : R) : RInt (fun x => A * sin x ^ 3 + B * (cos x ^ 2 * sin x) + c * (sin x ^ 2 * cos x)) 0 PI = 4 / 3 * A + 2 / 3 * B.
Proof.
  rewrite RInt_der with (F := fun x => A * (cos x ^ 3 / 3 - cos x) - B * (cos x ^ 3 / 3) + c * (sin x ^ 3 / 3)).
  - rewrite cos_PI, sin_PI, cos_0, sin_0. toR; field.
  - intros x. evar (d : R). replace (A * sin x ^ 3 + B * (cos x ^ 2 * sin x) + c * (sin x ^ 2 * cos x)) with d; unfold d; [auto_derive; [easy | reflexivity] |].
    pose proof (sin_sq x) as E. simpl pred. toR; field [E].
  - intros x. apply (ex_derive_continuous (V := R_NormedModule)). auto_derive. easy.
Qed.
Lemma int_l (A B D c : R) (a b : R) : RInt (fun x => A * sin x + B * (cos (2 * x) * sin x) + c * sin x ^ 3 + D * (cos x * sin x)) a b =
  A * (cos a - cos b) + B * ((cos b - 2 / 3 * cos b ^ 3) - (cos a - 2 / 3 * cos a ^ 3)) + c * ((cos b ^ 3 / 3 - cos b) - (cos a ^ 3 / 3 - cos a)) + D * (cos a ^ 2 - cos b ^ 2) / 2.
Proof.
  rewrite RInt_der with (F := fun x => - A * cos x + B * (cos x - 2 / 3 * cos x ^ 3) + c * (cos x ^ 3 / 3 - cos x) - D * (cos x ^ 2 / 2)).
  - toR; field.
  - intros x. evar (d : R). replace (A * sin x + B * (cos (2 * x) * sin x) + c * sin x ^ 3 + D * (cos x * sin x)) with d; unfold d; [auto_derive; [easy | reflexivity] |].
    pose proof (sin_sq x) as E. simpl pred. rewrite cos_2a_cos. toR; field [E].
  - intros x. apply (ex_derive_continuous (V := R_NormedModule)). auto_derive. easy.
Qed.
Lemma int_phi (A B c : R) : RInt (fun x => A + B * cos (2 * x) + c * sin (2 * x)) 0 (2 * PI) = 2 * PI * A.
Proof.
  rewrite RInt_der with (F := fun x => A * x + B * (sin (2 * x) / 2) - c * (cos (2 * x) / 2)).
  - assert (F1 : sin (2 * (2 * PI)) = 0) by (rewrite sin_2a, sin_2PI; ring). assert (F2 : cos (2 * (2 * PI)) = 1) by (rewrite cos_2a, sin_2PI, cos_2PI; ring).
    rewrite F1, F2, !Rmult_0_r, sin_0, cos_0. toR; field.
  - intros x. auto_derive; [easy | toR; field].
  - intros x. apply (ex_derive_continuous (V := R_NormedModule)). auto_derive. easy.
Qed.
Lemma density_K (J : jkey -> R) (thl phi : R) : RInt (fun thK => density J thK thl phi) 0 PI =
  3 / (8 * PI) * (J J1s + J J2s * cos (2 * thl) + J J3 * sin thl ^ 2 * cos (2 * phi) + J J6s * cos thl + J J9 * sin thl ^ 2 * sin (2 * phi)
    + / 2 * (J J1c + J J2c * cos (2 * thl) + J J6c * cos thl)) * sin thl.
Proof.
  pose proof PI_neq0.
  rewrite (ext_R _ (fun x => 9 / (32 * PI) * sin thl * (J J1s + J J2s * cos (2 * thl) + J J3 * sin thl ^ 2 * cos (2 * phi) + J J6s * cos thl + J J9 * sin thl ^ 2 * sin (2 * phi)) * sin x ^ 3
    + 9 / (32 * PI) * sin thl * (J J1c + J J2c * cos (2 * thl) + J J6c * cos thl) * (cos x ^ 2 * sin x)
    + 9 / (32 * PI) * sin thl * (2 * (J J4 * sin (2 * thl) * cos phi + J J5 * sin thl * cos phi + J J7 * sin thl * sin phi + J J8 * sin (2 * thl) * sin phi)) * (sin x ^ 2 * cos x))).
  - rewrite int_K. toR; field. assumption.
  - intros x. unfold density, distribution. rewrite (sin_2a x). toR; field. assumption.
Qed.
Lemma density_l (J : jkey -> R) (a b phi : R) : RInt (fun thl => RInt (fun thK => density J thK thl phi) 0 PI) a b =
  3 / (8 * PI) * ((J J1s + J J1c / 2) * (cos a - cos b) + (J J2s + J J2c / 2) * ((cos b - 2 / 3 * cos b ^ 3) - (cos a - 2 / 3 * cos a ^ 3)) + (J J3 * cos (2 * phi) + J J9 * sin (2 * phi)) * ((cos b ^ 3 / 3 - cos b) - (cos a ^ 3 / 3 - cos a)) + (J J6s + J J6c / 2) * (cos a ^ 2 - cos b ^ 2) / 2).
Proof.
  rewrite (ext_R _ (fun x => 3 / (8 * PI) * (J J1s + J J1c / 2) * sin x + 3 / (8 * PI) * (J J2s + J J2c / 2) * (cos (2 * x) * sin x) + 3 / (8 * PI) * (J J3 * cos (2 * phi) + J J9 * sin (2 * phi)) * sin x ^ 3 + 3 / (8 * PI) * (J J6s + J J6c / 2) * (cos x * sin x))).
  - rewrite int_l. toR; field. apply PI_neq0.
  - intros x. rewrite density_K. toR; field. apply PI_neq0.
Qed.
Lemma density_all (J : jkey -> R) (a b : R) : RInt (fun phi => RInt (fun thl => RInt (fun thK => density J thK thl phi) 0 PI) a b) 0 (2 * PI) =
  3 / 4 * ((J J1s + J J1c / 2) * (cos a - cos b) + (J J2s + J J2c / 2) * ((cos b - 2 / 3 * cos b ^ 3) - (cos a - 2 / 3 * cos a ^ 3)) + (J J6s + J J6c / 2) * (cos a ^ 2 - cos b ^ 2) / 2).
Proof.
  rewrite (ext_R _ (fun x => 3 / (8 * PI) * ((J J1s + J J1c / 2) * (cos a - cos b) + (J J2s + J J2c / 2) * ((cos b - 2 / 3 * cos b ^ 3) - (cos a - 2 / 3 * cos a ^ 3)) + (J J6s + J J6c / 2) * (cos a ^ 2 - cos b ^ 2) / 2)
     + 3 / (8 * PI) * J J3 * ((cos b ^ 3 / 3 - cos b) - (cos a ^ 3 / 3 - cos a)) * cos (2 * x) + 3 / (8 * PI) * J J9 * ((cos b ^ 3 / 3 - cos b) - (cos a ^ 3 / 3 - cos a)) * sin (2 * x))).
  - rewrite int_phi. toR; field. apply PI_neq0.
  - intros x. rewrite density_l. toR; field. apply PI_neq0.
Qed.
Lemma rate_is_integral (J : jkey -> R) : RInt (fun phi => RInt (fun thl => RInt (fun thK => density J thK thl phi) 0 PI) 0 PI) 0 (2 * PI) = dGdq2 J.
Proof. rewrite density_all, cos_0, cos_PI. unfold dGdq2. toR; field. Qed.
Lemma forward_backward (J : jkey -> R) :
  RInt (fun phi => RInt (fun thl => RInt (fun thK => density J thK thl phi) 0 PI) 0 (PI / 2)) 0 (2 * PI)
  - RInt (fun phi => RInt (fun thl => RInt (fun thK => density J thK thl phi) 0 PI) (PI / 2) PI) 0 (2 * PI) = 3 / 8 * (2 * J J6s + J J6c).
Proof. rewrite !density_all, cos_0, cos_PI, cos_PI2. toR; field. Qed.

(** quadrature: the rate is a positive combination of values of the distribution *)
Definition quad_phi (J : jkey -> R) (thK thl : R) : R := (distribution J thK thl 0 + distribution J thK thl (PI / 2)) / 2.
Lemma quadrature (J : jkey -> R) : dGdq2 J =
  3 / 4 * (1 / 3 * (1 / 6 * quad_phi J 0 0 + 2 / 3 * quad_phi J 0 (PI / 2) + 1 / 6 * quad_phi J 0 PI)
   + 2 / 3 * (1 / 6 * quad_phi J (PI / 2) 0 + 2 / 3 * quad_phi J (PI / 2) (PI / 2) + 1 / 6 * quad_phi J (PI / 2) PI)) * 3.
Proof.
  unfold quad_phi, distribution, dGdq2. rewrite !Rmult_0_r. replace (2 * (PI / 2)) with PI by field. rewrite !cos_2PI, !sin_2PI, !cos_0, !sin_0, !cos_PI, !sin_PI, !cos_PI2, !sin_PI2. toR; field.
Qed.
