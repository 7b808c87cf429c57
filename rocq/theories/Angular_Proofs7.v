(** * Proofs for the angular distributions: interference of the decay with mixing *)
From Coq Require Import Reals Lra Psatz.
From Coquelicot Require Import Complex.
From Verif Require Import Base Basics_Model Basics_Proofs Angular_Model Angular_Spec Angular_Proofs Angular_Proofs2 Angular_Proofs4.
Local Open Scope R_scope.

Section Identity.
  Variables (phi : R) (H Ht : amps) (q2 mB mV m1 m2 : R).
  Let e : C := (cos phi, sin phi).
  Lemma e_unit : (e * Cconj e)%C = RtoC 1.
  Proof using. unfold e, Cmult, Cconj, RtoC. cbn [fst snd]. pose proof (sin2_cos2 phi) as E. unfold Rsqr in E. f_equal; lra. Qed.
  Lemma e_mod : cos phi * cos phi = 1 - sin phi * sin phi.
  Proof using. pose proof (sin2_cos2 phi) as E. unfold Rsqr in E. lra. Qed.
  Lemma qp_is : (- - (cos phi, sin phi))%C = e.
  Proof using. unfold e, Copp. cbn [fst snd]. f_equal; ring. Qed.
  Lemma bil_add (a b a' b' : C) : ((a + e * a') * Cconj (b + e * b'))%C = (a * Cconj b + a' * Cconj b' + (e * a' * Cconj b + Cconj e * a * Cconj b'))%C.
  Proof using.
    rewrite Cconj_plus, Cconj_mult. replace ((a + e * a') * (Cconj b + Cconj e * Cconj b'))%C with
    (a * Cconj b + (e * Cconj e) * (a' * Cconj b') + (e * a' * Cconj b + Cconj e * a * Cconj b'))%C by ring. rewrite e_unit. ring.
  Qed.
  Lemma mod_add (a a' : C) : Cmod (a + e * a')%C ^ 2 = Cmod a ^ 2 + Cmod a' ^ 2 + 2 * fst (e * a' * Cconj a)%C.
  Proof using.
    rewrite !mod_bil. unfold bil. rewrite bil_add. clearbody e. destruct e, a, a'. unfold Cplus, Cmult, Cconj. cbn [fst snd]. ring.
  Qed.
  Let Gh := angularcoeffs_h_Gbasis_v phi H Ht q2 mB mV m1 m2.
  Let Gs := angularcoeffs_general_Gbasis_v (amps_add H e Ht) q2 mB mV m1 m2.
  Let G1 := angularcoeffs_general_Gbasis_v H q2 mB mV m1 m2.
  Let G2 := angularcoeffs_general_Gbasis_v Ht q2 mB mV m1 m2.
  Ltac start := unfold Gh, Gs, G1, G2, angularcoeffs_general_Gbasis_v, angularcoeffs_h_Gbasis_v; cbv zeta; unfold gscale;
    cbn [G000 G010 G020 G200 G210 G220 G211 G221 G222]; rewrite !qp_is; unfold amps_add; cbn [aV aA aP aS aT aTt];
    rewrite ?mod_add; clearbody e.
  Lemma pol_020 : G020 Gh = G020 Gs - G020 G1 - G020 G2.
  Proof using. start. unfold Rdiv. ring. Qed.
  Lemma pol_220 : G220 Gh = G220 Gs - G220 G1 - G220 G2.
  Proof using. start. unfold Rdiv. ring. Qed.
  Ltac start2 := unfold Gh, Gs, G1, G2, angularcoeffs_general_Gbasis_v, angularcoeffs_h_Gbasis_v; cbv zeta; unfold gscale;
    cbn [G000 G010 G020 G200 G210 G220 G211 G221 G222]; rewrite !qp_is; unfold amps_add; cbn [aV aA aP aS aT aTt];
    rewrite ?mod_add; rewrite <- ?Cmult_assoc; rewrite ?bil_add; rewrite <- ?Cmult_assoc; clearbody e; unfold Cminus.
  Lemma pol_000 : G000 Gh = G000 Gs - G000 G1 - G000 G2.
  Proof using. start2. pull. unfold Rdiv. ring. Qed.
  Lemma pol_200 : G200 Gh = G200 Gs - G200 G1 - G200 G2.
  Proof using. start2. pull. unfold Rdiv. ring. Qed.
  Lemma pol_221 : G221 Gh = (G221 Gs - G221 G1 - G221 G2)%C.
  Proof using. start2. ring. Qed.
  Lemma pol_222 : G222 Gh = (G222 Gs - G222 G1 - G222 G2)%C.
  Proof using. start2. ring. Qed.
  Lemma pol_211 : G211 Gh = (G211 Gs - G211 G1 - G211 G2)%C.
  Proof using. start2. unfold Cdiv. ring. Qed.
  Lemma pol_010 : G010 Gh = G010 Gs - G010 G1 - G010 G2.
  Proof using. start2. pull. unfold Rdiv. ring. Qed.
  Lemma pol_210 : G210 Gh = G210 Gs - G210 G1 - G210 G2.
  Proof using. start2. pull. unfold Rdiv. ring. Qed.
  Lemma polarisation (k : jkey) : angularcoeffs_h_v phi H Ht q2 mB mV m1 m2 k =
    angularcoeffs_general_v (amps_add H e Ht) q2 mB mV m1 m2 k - angularcoeffs_general_v H q2 mB mV m1 m2 k - angularcoeffs_general_v Ht q2 mB mV m1 m2 k.
  Proof using.
    unfold angularcoeffs_h_v, angularcoeffs_general_v. fold Gh Gs G1 G2. pose proof pol_000. pose proof pol_010. pose proof pol_020. pose proof pol_200. pose proof pol_210. pose proof pol_220.
    pose proof pol_211 as c1. pose proof pol_221 as c2. pose proof pol_222 as c3. unfold Cminus in c1, c2, c3.
    pose proof (f_equal fst c1) as d1. pose proof (f_equal snd c1) as d1'. pose proof (f_equal fst c2) as d2. pose proof (f_equal snd c2) as d2'. pose proof (f_equal fst c3) as d3. pose proof (f_equal snd c3) as d3'.
    rewrite ?fst_plus, ?snd_plus, ?fst_opp, ?snd_opp in *.
    unfold J_of_g, G_to_g. destruct k; cbn [signflip]; try lra.
    all: match goal with |- context [sqrt 3] => idtac end; first [rewrite d1 | rewrite d1']; rewrite ?fst_plus, ?snd_plus, ?fst_opp, ?snd_opp; field.
  Qed.
End Identity.
