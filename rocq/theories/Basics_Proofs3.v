From Coq Require Import Reals Lra Psatz.
From Coquelicot Require Import Complex.
From Verif Require Import Base BaseLemmas Basics_Model Basics_Spec Basics_Proofs.
Local Open Scope R_scope.

Lemma standard_conj t12 t13 t23 d k i : standard t12 t13 t23 (- d) k i = Cconj (standard t12 t13 t23 d k i).
Proof.
  destruct k as [|[|[|k]]]; destruct i as [|[|[|i]]]; cbn [standard]; unfold cis; rewrite ?cos_neg, ?sin_neg;
  unfold Cminus; unfold Cplus, Cmult, Cconj, Copp, RtoC; cbn [fst snd]; apply injective_projections; cbn [fst snd]; ring.
Qed.
Lemma trig t : sin t ^ 2 = 1 - cos t ^ 2.
Proof. pose proof (sin2_cos2 t) as H. unfold Rsqr in H. lra. Qed.
Lemma standard_unitary t12 t13 t23 d : unitary (standard t12 t13 t23 d).
Proof.
  assert (T : forall t, cos t * cos t = 1 - sin t * sin t) by (intros t; pose proof (trig t); lra).
  split; intros i j Hi Hj; destruct i as [|[|[|i]]]; try (exfalso; lia); destruct j as [|[|[|j]]]; try (exfalso; lia); cbn [standard delta Nat.eqb];
  unfold cis; rewrite ?cos_neg, ?sin_neg; unfold Cminus; unfold Cplus, Cmult, Cconj, Copp, RtoC, delta; cbn [fst snd Nat.eqb]; apply injective_projections; cbn [fst snd];
  pose proof (T t12) as A; pose proof (T t13) as B; pose proof (T t23) as D; pose proof (T d) as F;
  set (a := sin t12) in *; set (b := sin t13) in *; set (e := sin t23) in *; set (g := sin d) in *;
  set (a' := cos t12) in *; set (b' := cos t13) in *; set (e' := cos t23) in *; set (g' := cos d) in *;
  ring_simplify; try reflexivity;
  repeat match goal with
  | |- context[a' ^ 2] => replace (a' ^ 2) with (1 - a * a) by lra
  | |- context[b' ^ 2] => replace (b' ^ 2) with (1 - b * b) by lra
  | |- context[e' ^ 2] => replace (e' ^ 2) with (1 - e * e) by lra
  | |- context[g' ^ 2] => replace (g' ^ 2) with (1 - g * g) by lra
  end; ring.
Qed.
