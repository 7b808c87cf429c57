(** * Proofs about form factors: changes to the parameter dictionary, zero recoil *)
From Coq Require Import Reals Lra Psatz.
From Verif Require Import Base BaseLemmas FormFactors_Model FormFactors_Spec FormFactors_Proofs FormFactors_Proofs2 FormFactors_Proofs3 FormFactors_Proofs4.
Local Open Scope R_scope.

Definition agree (ks : list string) (par par' : params) : Prop := forall k, ~ In k ks -> od_get k par = od_get k par'.
Lemma agree_look ks par par' k : agree ks par par' -> ~ In k ks -> look par k = look par' k.
Proof. intros A N. unfold look. now rewrite (A k N). Qed.
Lemma agree_set ks par par' k v : agree (k :: ks) par par' -> agree ks (od_set k v par) (od_set k v par').
Proof.
  intros A x N. destruct (string_dec x k) as [e | e]; [subst x; now rewrite !od_get_set_eq |].
  rewrite !od_get_set_ne by congruence. apply A. intros [X | X]; [congruence | contradiction].
Qed.
Lemma agree_nil par par' : agree [] par par' -> forall k, look par k = look par' k.
Proof. intros A k. apply (agree_look [] par par' k A). intros []. Qed.
Lemma coeffs_ext par par' pre i js : (forall k, look par k = look par' k) -> coeffs par pre i js = coeffs par' pre i js.
Proof. intros H. unfold coeffs. induction js as [| j js IH]; [reflexivity |]. cbn [mapM]. now rewrite H, IH. Qed.
Lemma bszV_proc p pd : bszV_process p = Some pd ->
  In (p, pd) [("B->K*", ("B0", "K*0")); ("B->rho", ("B0", "rho0")); ("B->omega", ("B0", "omega")); ("Bs->phi", ("Bs", "phi")); ("Bs->K*", ("Bs", "K*0")); ("B->D*", ("B0", "D*0"))]%string.
Proof.
  unfold bszV_process. repeat (match goal with |- context [String.eqb p ?s] => destruct (String.eqb_spec p s) as [-> | _] end; [intros H; injection H as <-; cbn; tauto |]). discriminate.
Qed.
Ltac notin := let X := fresh in intros X; cbn in X; repeat destruct X as [X | X]; try discriminate X; try exact X.
Lemma bszV_agree p q2 n par par' : agree [p ++ " BSZ a0_A12"; p ++ " BSZ a0_T2"]%string par par' ->
  fst (bsz_ffV p q2 par n) = fst (bsz_ffV p q2 par' n) /\ (forall ff, fst (bsz_ffV p q2 par n) = Ok ff -> forall k, od_get k (snd (bsz_ffV p q2 par n)) = od_get k (snd (bsz_ffV p q2 par' n))).
Proof.
  intros A. unfold bsz_ffV. unfold lookd. destruct (bszV_process p) as [pd |] eqn:Epd; cbn [bind]; [| split; [reflexivity | discriminate]]. apply bszV_proc in Epd.
  assert (L : forall k, ~ In k [p ++ " BSZ a0_A12"; p ++ " BSZ a0_T2"]%string -> look par k = look par' k) by (intros k; now apply agree_look).
  assert (LL : forall k, In k [p ++ " BCL m0"; p ++ " BCL m1-"; p ++ " BCL m1+"; "m_" ++ fst pd; "m_" ++ snd pd; p ++ " BSZ a0_A0"; p ++ " BSZ a0_T1"]%string -> look par k = look par' k).
  { intros k I. apply L. cbn in Epd. repeat destruct Epd as [Epd | Epd]; try contradiction; injection Epd as <- <-; cbn in I; repeat destruct I as [I | I]; try contradiction; subst k; notin. }
  clear Epd. rewrite !(LL (p ++ " BCL m0")%string), !(LL (p ++ " BCL m1-")%string), !(LL (p ++ " BCL m1+")%string), !(LL ("m_" ++ fst pd)%string), !(LL ("m_" ++ snd pd)%string), !(LL (p ++ " BSZ a0_A0")%string) by (cbn; tauto).
  destruct (bind _ _) as [(((mres, mB), mV), a12) | e]; [| split; [reflexivity | discriminate]].
  rewrite !look_set_ne by (intros X; apply app_cancel in X; discriminate X). rewrite (LL (p ++ " BSZ a0_T1")%string) by (cbn; tauto).
  destruct (look par' (p ++ " BSZ a0_T1")) as [aT | e]; [| split; [reflexivity | discriminate]]. cbn [fst snd].
  assert (E : agree [] (od_set (p ++ " BSZ a0_T2")%string aT (od_set (p ++ " BSZ a0_A12")%string a12 par)) (od_set (p ++ " BSZ a0_T2")%string aT (od_set (p ++ " BSZ a0_A12")%string a12 par'))) by (apply agree_set, agree_set; exact A).
  split; [| intros ff _ k; apply E; intros []]. apply mapM_ext. intros i _. rewrite (coeffs_ext _ _ _ i (seq 0 n) (agree_nil _ _ E)). reflexivity.
Qed.
Lemma bszV_frame p q2 par n ff par' : bsz_ffV p q2 par n = (Ok ff, par') -> agree [p ++ " BSZ a0_A12"; p ++ " BSZ a0_T2"]%string par' par.
Proof.
  intros H. apply bszV_inv in H as (pd & m0 & m1 & m2 & mB & mV & a0 & aT & _ & _ & _ & _ & _ & _ & _ & _ & _ & _ & -> & _).
  intros k N. rewrite !od_get_set_ne; [reflexivity | |]; intros X; subst k; apply N; cbn; auto.
Qed.
Definition keysL : list string := ["Lambdab->Lambda SSE a0_fAperp"; "Lambdab->Lambda SSE a0_fT5perp"]%string.
Lemma sseL_agree q2 n par par' : agree keysL par par' -> fst (sse_ffL "Lambdab->Lambda" q2 par n) = fst (sse_ffL "Lambdab->Lambda" q2 par' n).
Proof.
  intros A. unfold sse_ffL. unfold lookd. change (String.eqb "Lambdab->Lambda" "Lambdab->Lambda") with true. cbv iota. cbn [bind fst snd append].
  assert (L : forall k, ~ In k keysL -> look par k = look par' k) by (intros k; now apply agree_look).
  rewrite !(L "m_Lambda"%string), !(L "m_K+"%string), !(L "Lambdab->Lambda SSE a0_fA0"%string) by notin.
  destruct (bind _ _) as [((mX, mP), aA) | e]; [| reflexivity].
  rewrite !look_set_ne by discriminate. rewrite (L "Lambdab->Lambda SSE a0_fT50"%string) by notin.
  destruct (look par' "Lambdab->Lambda SSE a0_fT50") as [aT | e]; [| reflexivity]. cbn [fst].
  assert (E : agree [] (od_set "Lambdab->Lambda SSE a0_fT5perp"%string aT (od_set "Lambdab->Lambda SSE a0_fAperp"%string aA par)) (od_set "Lambdab->Lambda SSE a0_fT5perp"%string aT (od_set "Lambdab->Lambda SSE a0_fAperp"%string aA par'))) by (apply agree_set, agree_set; exact A).
  apply mapM_ext. intros i _. rewrite (coeffs_ext _ _ _ i (seq 0 n) (agree_nil _ _ E)). rewrite !(agree_nil _ _ E). reflexivity.
Qed.
Lemma sseL_frame q2 par n ff par' : sse_ffL "Lambdab->Lambda" q2 par n = (Ok ff, par') -> agree keysL par' par.
Proof.
  intros H. apply sseL_inv in H as (mX & mP & aA & aT & _ & _ & _ & _ & -> & _). intros k N. rewrite !od_get_set_ne; [reflexivity | |]; intros X; subst k; apply N; cbn; auto.
Qed.
(** *** zero recoil *)
Lemma w1_at1 mB mM : 0 < mB -> 0 < mM -> pdiv (mB ^ 2 + mM ^ 2 - (mB - mM) ^ 2) (2 * mB * mM) = Ok 1.
Proof. intros B M. rewrite pdiv_is by nra. f_equal. field. lra. Qed.
Lemma z_at1 mB mM : 0 < mB -> 0 < mM -> z mB mM ((mB - mM) ^ 2) T0tm = Ok 0.
Proof. intros B M. pose proof (t_lt mB mM B M T0tm I) as L. pose proof (tm_lt mB mM B M). change ((mB - mM) ^ 2) with (t_zero mB mM T0tm). rewrite z_is; [| assumption | assumption | change (t_minus mB mM <= t_plus mB mM); lra | exact L]. now rewrite zval_zero. Qed.
Lemma wpow_at0 n m v : (0 < n)%nat -> w_minus_1_pow_n 0 n m = Ok v -> v = 0.
Proof.
  intros N. unfold w_minus_1_pow_n. destruct (Nat.ltb 3 m) eqn:M; [discriminate |]. destruct (Nat.ltb 3 n) eqn:N3; [discriminate |].
  apply Nat.ltb_ge in M. destruct m as [| [| [| [| m]]]]; [| | | | lia]; (destruct n as [| [| [| n]]]; [lia | | |]); cbn; intros H; injection H as <-; ring.
Qed.
Lemma xi_at1 rho2 c x o v : xi_fun 0 rho2 c x o = Ok v -> v = 1.
Proof. intros H. unfold xi_fun in H. bi H w1 E1. bi H w2 E2. bi H w3 E3. injection H as <-. apply wpow_at0 in E1, E2, E3; [| lia | lia | lia]. subst. field. Qed.
Lemma L_at1 par o L : Lz par 1 0 o = Ok L -> L 1%nat = 0 /\ L 2%nat = 0.
Proof.
  intros H. unfold Lz in H. bi H w1 E1. bi H w2 E2. bi H c0 Ec0. bi H c1 Ec1. bi H c2 Ec2. bi H d1 Ed1. bi H d2 Ed2. bi H e0 Ee0. bi H e1 Ee1. bi H e2 Ee2. bi H l6 E6. injection H as <-.
  apply wpow_at0 in E1, E2; [| lia | lia]. subst. split; field.
Qed.
Lemma l_at1 par o l : ell par 0 o = Ok l -> look par "CLN l_1(1)" = Ok (l 1%nat) /\ look par "CLN l_2(1)" = Ok (l 2%nat).
Proof.
  intros H. unfold ell in H. bi H ls E. injection H as <-. cbn [seq mapM] in E. bi E a1 E1. bi E r1 Er1. injection E as <-. bi Er1 a2 E2. bi Er1 r2 Er2. injection Er1 as <-.
  unfold ell_i in E1, E2. bi E1 w1 W1. bi E1 x1 X1. bi E1 y1 Y1. injection E1 as <-. bi E2 w2 W2. bi E2 x2 X2. bi E2 y2 Y2. injection E2 as <-. apply wpow_at0 in W1, W2; [| lia | lia]. subst.
  cbn [nth Nat.sub]. rewrite !Rmult_0_l, !Rplus_0_r. split; [exact X1 | exact X2].
Qed.
Lemma clnV_recoil h par a b c ff mB mV : 0 < mB -> 0 < mV -> look par "m_B0" = Ok mB -> look par "m_D*+" = Ok mV -> cln_ffV h "B->D*" ((mB - mV) ^ 2) par a b c = Ok ff ->
  exists A1 l2, od_get "A1"%string ff = Some A1 /\ look par "CLN l_2(1)" = Ok l2 /\ A1 * (mB + mV) / (2 * sqrt (mB * mV)) = 1 + ash h * cfun h "CA1" 1 (zc h) + epsc h ^ 2 * l2.
Proof.
  intros B V LB LV H. unfold cln_ffV in H. bi H pd Epd. injection Epd as <-. cbn [fst snd append] in H. rewrite LB in H. cbn [bind] in H. rewrite LV in H. cbn [bind] in H. rewrite w1_at1 in H by assumption. cbn [bind] in H. rewrite (Rmax_left 1 1) in H by lra.
  rewrite z_at1 in H by assumption. cbn [bind] in H. bi H rho2 Erho2. bi H cx Ecx. bi H xi3 Exi3. bi H xi Exi. bi H L EL. bi H l El. bi H v Ev. apply xi_at1 in Exi as ->. apply L_at1 in EL as (L1 & L2). apply l_at1 in El as (l1 & l2). apply pdiv_ok in Ev as (_ & ->).
  unfold h_to_A in H. bi H s Es. bi H pre Epre. bi H A1 EA1. bi H rA ErA. bi H x1 Ex1. bi H x2 Ex2. bi H x3 Ex3. bi H y1 Ey1. bi H y2 Ey2. bi H y3 Ey3. bi H A12 EA12. bi H T23 ET23. injection H as <-.
  exists A1, (l 2%nat). refine (conj eq_refl (conj l2 _)). apply psqrt_ok in Es as (P & ->). apply pdiv_ok in Epre as (N & ->). apply pdiv_ok in EA1 as (N1 & ->). cbn [String.eqb Ascii.eqb Bool.eqb]. 
  assert (S2 : sqrt (mB * mV) * sqrt (mB * mV) = mB * mV) by (apply sqrt_sqrt; exact P). set (s := sqrt (mB * mV)) in *.
  replace ((mB + mV) ^ 2 - (mB - mV) ^ 2) with (4 * (s * s)) by (rewrite S2; ring). rewrite L1, L2. field. split; [exact N | lra].
Qed.
Lemma clnP_recoil h par a b c ff mB mP : 0 < mP < mB -> look par "m_B0" = Ok mB -> look par "m_D+" = Ok mP -> cln_ffP h "B->D" ((mB - mP) ^ 2) par a b c = Ok ff ->
  exists f0 l1, od_get "f0"%string ff = Some f0 /\ look par "CLN l_1(1)" = Ok l1 /\
    f0 * (mB + mP) / (2 * sqrt (mB * mP)) = 1 + ash h * (cfun h "CV1" 1 (zc h) + cfun h "CV2" 1 (zc h) + cfun h "CV3" 1 (zc h)) + epsc h ^ 2 * l1.
Proof.
  intros (P & PB) LB LV H. assert (B : 0 < mB) by lra. unfold cln_ffP in H. bi H pd Epd. injection Epd as <-. cbn [fst snd append] in H. rewrite LB in H. cbn [bind] in H. rewrite LV in H. cbn [bind] in H. rewrite w1_at1 in H by assumption. cbn [bind] in H. rewrite (Rmax_left 1 1) in H by lra.
  rewrite z_at1 in H by assumption. cbn [bind] in H. bi H rho2 Erho2. bi H cx Ecx. bi H xi3 Exi3. bi H xi Exi. bi H L EL. bi H l El. apply xi_at1 in Exi as ->. apply L_at1 in EL as (L1 & L2). apply l_at1 in El as (l1 & l2).
  unfold h_to_f in H. bi H r Er. bi H s Es. bi H fp Efp. bi H fm Efm. bi H x Ex. bi H t Et. injection H as <-. exists (fp + x), (l 1%nat). refine (conj eq_refl (conj l1 _)).
  apply pdiv_ok in Er as (_ & ->). apply psqrt_ok in Es as (R0 & ->). apply pdiv_ok in Efp as (N & ->). apply pdiv_ok in Efm as (_ & ->). apply pdiv_ok in Ex as (N2 & ->). rewrite L1.
  assert (S1 : sqrt (mB * mP) = mB * sqrt (mP / mB)). { rewrite <- (sqrt_pow2 mB) at 2 by lra. rewrite <- sqrt_mult by (try apply pow2_ge_0; exact R0). f_equal. field. lra. }
  rewrite S1. assert (S2 : sqrt (mP / mB) * sqrt (mP / mB) = mP / mB) by (apply sqrt_sqrt; exact R0). assert (S3 : sqrt (mP / mB) <> 0) by (intros X; rewrite X in N; apply N; ring).
  set (s := sqrt (mP / mB)) in *. assert (E : mP = mB * (s * s)) by (rewrite S2; field; lra). set (hp := _ * (1 + _ + _ + _)). set (hm := _ * (_ + _ + _)).
  transitivity hp; [| unfold hp; field]. clearbody hp hm. assert (D : 1 - s * s <> 0) by (intros X; rewrite E in PB; nra). assert (Q : 1 + s * s <> 0) by nra.
  rewrite E in N2 |- *. replace (mB * (s * s) / mB) with (s * s) by (field; lra). field. repeat split; try assumption; try lra; nra.
Qed.
