(** * Proofs about form factors: B -> V, baryons *)
From Coq Require Import Reals Lra Psatz.
From Verif Require Import Base BaseLemmas FormFactors_Model FormFactors_Spec FormFactors_Proofs FormFactors_Proofs2 FormFactors_Proofs3.
Local Open Scope R_scope.

Lemma mapM_od (f : string -> result (string * R)) (l : list string) (ff : od string R) (i : string) :
  (forall j y, f j = Ok y -> fst y = j) -> mapM f l = Ok ff -> In i l -> exists v, f i = Ok (i, v) /\ od_get i ff = Some v.
Proof.
  intros F. revert ff. induction l as [| j l IH]; intros ff H I; [destruct I |]. cbn [mapM] in H. bi H y Ey. bi H r Er. injection H as <-. pose proof (F j y Ey) as Fj. destruct y as [j' v]. cbn [fst] in Fj. subst j'.
  cbn [od_get]. destruct (eqb_spec i j) as [e | e].
  - subst j. exists v. auto.
  - destruct I as [I | I]; [congruence |]. apply (IH r Er I).
Qed.
Lemma mapM_ext (f g : string -> result (string * R)) l : (forall i, In i l -> f i = g i) -> mapM f l = mapM g l.
Proof. induction l as [| i l IH]; intros H; [reflexivity |]. cbn [mapM]. rewrite (H i (or_introl eq_refl)), IH; [reflexivity | intros j J; apply H; now right]. Qed.
Lemma app_cancel (p a b : string) : (p ++ a)%string = (p ++ b)%string -> a = b.
Proof. induction p as [| c p IH]; cbn; intros H; [exact H | injection H as H; auto]. Qed.
Lemma look_set_ne par k k' v : k <> k' -> look (od_set k v par) k' = look par k'.
Proof. intros N. unfold look. rewrite od_get_set_ne; [reflexivity | congruence]. Qed.
Lemma look_set_eq par k v : look (od_set k v par) k = Ok v.
Proof. unfold look. now rewrite od_get_set_eq. Qed.

(** *** BSZ, B -> V *)
Lemma bszV_inv p q2 par n ff par' : bsz_ffV p q2 par n = (Ok ff, par') -> exists pd m0 m1 m2 mB mV a0 aT,
  bszV_process p = Some pd /\ look par (p ++ " BCL m0") = Ok m0 /\ look par (p ++ " BCL m1-") = Ok m1 /\ look par (p ++ " BCL m1+") = Ok m2 /\ look par ("m_" ++ fst pd) = Ok mB /\ look par ("m_" ++ snd pd) = Ok mV /\
  look par (p ++ " BSZ a0_A0") = Ok a0 /\ look par (p ++ " BSZ a0_T1") = Ok aT /\ mB ^ 2 - mV ^ 2 <> 0 /\ 8 * mB * mV / (mB ^ 2 - mV ^ 2) <> 0 /\
  par' = od_set (p ++ " BSZ a0_T2")%string aT (od_set (p ++ " BSZ a0_A12")%string (a0 / (8 * mB * mV / (mB ^ 2 - mV ^ 2))) par) /\
  mapM (fun i => do a <- coeffs par' (p ++ " BSZ") i (seq 0 n); do q <- poleV i [m0; m1; m2] q2; do zs <- bsz_zs mB mV q2 T0none; do s <- npdot a (firstn n zs); Ok (i, (q * s)%R)) namesV = Ok ff.
Proof.
  unfold bsz_ffV. destruct (bind _ _) as [(((mres, mB), mV), a12) | e] eqn:E; [| intros H; discriminate H].
  bi E pd Epd. bi E m0 Em0. bi E m1 Em1. bi E m2 Em2. bi E mB' EmB. bi E mV' EmV. bi E a0 Ea0. bi E k Ek. bi E a12' Ea12. injection E as <- <- <- <-.
  apply pdiv_ok in Ek as (N1 & ->). apply pdiv_ok in Ea12 as (N2 & ->). rewrite look_set_ne by (intros X; apply app_cancel in X; discriminate X).
  destruct (look par (p ++ " BSZ a0_T1")) as [aT | e] eqn:ET; intros H; [| discriminate H]. apply pair_equal_spec in H as (H1 & H2).
  exists pd, m0, m1, m2, mB', mV', a0, aT. subst par'.
  assert (Epd' : bszV_process p = Some pd) by (unfold lookd in Epd; destruct (bszV_process p); [now injection Epd as -> | discriminate Epd]).
  exact (conj Epd' (conj Em0 (conj Em1 (conj Em2 (conj EmB (conj EmV (conj Ea0 (conj eq_refl (conj N1 (conj N2 (conj eq_refl H1))))))))))).
Qed.
Lemma bszV_at0 par' p n i mres mB mV y : (0 < n)%nat ->
  (do a <- coeffs par' (p ++ " BSZ") i (seq 0 n); do q <- poleV i mres 0; do zs <- bsz_zs mB mV 0 T0none; do s <- npdot a (firstn n zs); Ok (i, (q * s)%R)) = Ok y -> look par' (p ++ " BSZ a0_" ++ i)%string = Ok (snd y).
Proof.
  intros N H. bi H a Ea. bi H q Eq. apply poleV_0 in Eq as ->. bi H zs Ezs. apply zs_0 in Ezs as ->. bi H s Es. injection H as <-. destruct n as [| n]; [lia |].
  apply coeffs_cons in Ea as (x & r & Ex & _ & ->). apply npdot_0 in Es as ->. cbn [snd]. rewrite Rmult_1_l. rewrite <- append_assoc' in Ex. exact Ex.
Qed.
Lemma first_fst {A} (r : result A) (g : A -> result (string * R)) i y : (forall a z, g a = Ok z -> fst z = i) -> bind r g = Ok y -> fst y = i.
Proof. intros G H. apply bind_ok in H as (a & _ & H). now apply G in H. Qed.
Lemma bszV_fst par' p n q2 mres mB mV j y : (do a <- coeffs par' (p ++ " BSZ") j (seq 0 n); do q <- poleV j mres q2; do zs <- bsz_zs mB mV q2 T0none; do s <- npdot a (firstn n zs); Ok (j, (q * s)%R)) = Ok y -> fst y = j.
Proof. intros H. bi H a Ea. bi H q Eq. bi H zs Ezs. bi H s Es. injection H as <-. reflexivity. Qed.
Lemma bszV_values p par n ff par' : (0 < n)%nat -> bsz_ffV p 0 par n = (Ok ff, par') -> forall i, In i namesV -> exists v, od_get i ff = Some v /\ look par' (p ++ " BSZ a0_" ++ i)%string = Ok v.
Proof.
  intros N H i I. apply bszV_inv in H as (pd & m0 & m1 & m2 & mB & mV & a0 & aT & _ & _ & _ & _ & _ & _ & _ & _ & _ & _ & _ & H).
  destruct (mapM_od _ _ _ i (fun j y => bszV_fst par' p n 0 [m0; m1; m2] mB mV j y) H I) as (v & E & G). exists v. split; [exact G |]. exact (bszV_at0 _ _ _ _ _ _ _ _ N E).
Qed.
Lemma inV i : In i ["A0"; "A1"; "A12"; "V"; "T1"; "T2"; "T23"]%string -> In i namesV.
Proof. intros H. exact H. Qed.
Lemma bszV_relations p par n ff par' : (0 < n)%nat -> bsz_ffV p 0 par n = (Ok ff, par') -> exists pd mB mV A0 A12 T,
  bszV_process p = Some pd /\ look par ("m_" ++ fst pd) = Ok mB /\ look par ("m_" ++ snd pd) = Ok mV /\
  od_get "A0"%string ff = Some A0 /\ od_get "A12"%string ff = Some A12 /\ od_get "T1"%string ff = Some T /\ od_get "T2"%string ff = Some T /\ A0 * (mB ^ 2 - mV ^ 2) = 8 * mB * mV * A12.
Proof.
  intros N H. pose proof (bszV_values p par n ff par' N H) as V. apply bszV_inv in H as (pd & m0 & m1 & m2 & mB & mV & a0 & aT & Epd & _ & _ & _ & EmB & EmV & Ea0 & EaT & N1 & N2 & Ep & _).
  destruct (V "A0"%string) as (v1 & G1 & L1); [cbn; auto |]. destruct (V "A12"%string) as (v2 & G2 & L2); [cbn; auto |]. destruct (V "T1"%string) as (v3 & G3 & L3); [cbn; tauto |]. destruct (V "T2"%string) as (v4 & G4 & L4); [cbn; tauto |].
  subst par'.
  change (p ++ " BSZ a0_" ++ "A0")%string with (p ++ " BSZ a0_A0")%string in L1. change (p ++ " BSZ a0_" ++ "A12")%string with (p ++ " BSZ a0_A12")%string in L2. change (p ++ " BSZ a0_" ++ "T1")%string with (p ++ " BSZ a0_T1")%string in L3. change (p ++ " BSZ a0_" ++ "T2")%string with (p ++ " BSZ a0_T2")%string in L4.
  rewrite !look_set_ne in L1 by (intros X; apply app_cancel in X; discriminate X). rewrite look_set_ne, look_set_eq in L2 by (intros X; apply app_cancel in X; discriminate X). rewrite !look_set_ne in L3 by (intros X; apply app_cancel in X; discriminate X). rewrite look_set_eq in L4.
  rewrite Ea0 in L1. rewrite EaT in L3. injection L1 as <-. injection L2 as <-. injection L3 as <-. injection L4 as <-.
  exists pd, mB, mV, a0, (a0 / (8 * mB * mV / (mB ^ 2 - mV ^ 2))), aT. refine (conj Epd (conj EmB (conj EmV (conj G1 (conj G2 (conj G3 (conj G4 _))))))).
  assert (N3 : 8 * mB * mV <> 0) by (intros X; apply N2; rewrite X; unfold Rdiv; ring).
  assert (mB <> 0) by (intros ->; apply N3; ring). assert (mV <> 0) by (intros ->; apply N3; ring). field. auto.
Qed.

(** *** CLN, B -> V *)
Lemma h_to_A_0 mB mV h ff : h_to_A mB mV h 0 = Ok ff -> exists A0 A12 T, od_get "A0"%string ff = Some A0 /\ od_get "A12"%string ff = Some A12 /\ od_get "T1"%string ff = Some T /\ od_get "T2"%string ff = Some T /\ A0 * (mB ^ 2 - mV ^ 2) = 8 * mB * mV * A12.
Proof.
  intros H. unfold h_to_A in H. bi H s Es. bi H pre Epre. bi H A1 EA1. bi H rA ErA. bi H x1 Ex1. bi H x2 Ex2. bi H x3 Ex3. bi H y1 Ey1. bi H y2 Ey2. bi H y3 Ey3. bi H A12 EA12. bi H T23 ET23. injection H as <-.
  apply pdiv_ok in EA1 as (N1 & ->). apply pdiv_ok in ErA as (N2 & ->). apply pdiv_ok in Ex1 as (N3 & ->). apply pdiv_ok in Ex2 as (N4 & ->). apply pdiv_ok in Ex3 as (N5 & ->).
  apply pdiv_ok in Ey1 as (N6 & ->). apply pdiv_ok in Ey2 as (N7 & ->). apply pdiv_ok in EA12 as (N8 & ->).
  assert (V : mV <> 0) by (intros ->; apply N3; ring).
  eexists _, _, _. refine (conj eq_refl (conj eq_refl (conj eq_refl (conj _ _)))).
  - match goal with |- od_get _ (_ :: _ :: _ :: _ :: (_, ?b) :: _) = Some ?a => change (Some b = Some a) end. f_equal. f_equal. field. auto.
  - field. auto.
Qed.
Lemma clnV_0 h p par a b c ff : cln_ffV h p 0 par a b c = Ok ff -> exists mB mV A0 A12 T, p = "B->D*"%string /\ look par "m_B0" = Ok mB /\ look par "m_D*+" = Ok mV /\
  od_get "A0"%string ff = Some A0 /\ od_get "A12"%string ff = Some A12 /\ od_get "T1"%string ff = Some T /\ od_get "T2"%string ff = Some T /\ A0 * (mB ^ 2 - mV ^ 2) = 8 * mB * mV * A12.
Proof.
  intros H. unfold cln_ffV in H. bi H pd Epd. bi H mB EmB. bi H mV EmV. bi H w0 Ew0. bi H zz Ezz. bi H rho2 Erho2. bi H cx Ecx. bi H xi3 Exi3. bi H xi Exi. bi H L EL. bi H l El. bi H v Ev.
  apply h_to_A_0 in H as (A0 & A12 & T & H). unfold lookd in Epd. destruct (String.eqb_spec p "B->D*") as [e | e]; [| discriminate Epd]. injection Epd as <-. exists mB, mV, A0, A12, T. auto.
Qed.

(** *** CLNexp-IW *)
Lemma iwV_inv mb mc p q2 ff0 par ff : isgur_wiseV mb mc p q2 ff0 par = Ok ff -> (forall k, ~ In k ["T1"; "T2"; "T23"]%string -> od_get k ff = od_get k ff0) /\ p = "B->D*"%string /\
  exists mB mV a1 a2 a23 fV fA1 fA12 fA0, look par "m_B0" = Ok mB /\ look par "m_D*+" = Ok mV /\ look par "B->D* IW a_T1" = Ok a1 /\ look par "B->D* IW a_T2" = Ok a2 /\ look par "B->D* IW a_T23" = Ok a23 /\
  look ff0 "V" = Ok fV /\ look ff0 "A1" = Ok fA1 /\ look ff0 "A12" = Ok fA12 /\ look ff0 "A0" = Ok fA0 /\
  mB + mV <> 0 /\ mB - mV <> 0 /\
  od_get "T1"%string ff = Some ((mb + mc) / (mB + mV) * fV * (1 + a1)) /\ od_get "T2"%string ff = Some ((mb - mc) / (mB - mV) * fA1 * (1 + a2)) /\
  (q2 = 0 -> od_get "T23"%string ff = Some (4 * fA12 * (mb - mc) * (mB ^ 2 + mV ^ 2) / ((mB - mV) ^ 2 * (mB + mV)))) /\
  (q2 <> 0 -> od_get "T23"%string ff = Some ((mb - mc) * (((mB - mV) ^ 2 - q2) * ((mB + mV) ^ 2 - q2) * fA0 + 8 * mB * mV * (- mB ^ 2 + mV ^ 2) * fA12) / (4 * mB * (mV - mB) * mV * q2) * (1 + a23))).
Proof.
  intros H. unfold isgur_wiseV in H. bi H pd Epd. bi H mB EmB. bi H mV EmV. bi H a1 Ea1. bi H a2 Ea2. bi H a23 Ea23. bi H fV EfV. bi H fA1 EfA1. bi H fA12 EfA12. bi H fA0 EfA0. bi H x1 Ex1. bi H x2 Ex2. bi H t Et. injection H as <-.
  apply pdiv_ok in Ex1 as (N1 & ->). apply pdiv_ok in Ex2 as (N2 & ->). unfold lookd in Epd. destruct (String.eqb_spec p "B->D*") as [e | e]; [| discriminate Epd]. injection Epd as <-. subst p.
  refine (conj _ (conj eq_refl _)).
  { intros k Hk. rewrite !od_get_set_ne; [reflexivity | | |]; intros X; subst k; apply Hk; cbn; auto. }
  exists mB, mV, a1, a2, a23, fV, fA1, fA12, fA0. refine (conj EmB (conj EmV (conj Ea1 (conj Ea2 (conj Ea23 (conj EfV (conj EfA1 (conj EfA12 (conj EfA0 (conj N1 (conj N2 (conj _ (conj _ (conj _ _)))))))))))))).
  - rewrite !(od_get_set_ne) by discriminate. now rewrite od_get_set_eq.
  - rewrite od_get_set_ne by discriminate. now rewrite od_get_set_eq.
  - intros Q. destruct (Req_EM_T q2 0) as [_ | F]; [| contradiction]. apply pdiv_ok in Et as (_ & ->). now rewrite od_get_set_eq.
  - intros Q. destruct (Req_EM_T q2 0) as [F | _]; [contradiction |]. bi Et x Ex. apply pdiv_ok in Ex as (_ & ->). injection Et as <-. now rewrite od_get_set_eq.
Qed.
Lemma clnexp_inv mb mc p q2 par ff : clnexp_ff mb mc p q2 par = Ok ff -> p = "B->D*"%string /\ exists mB mV ff0, look par "m_B0" = Ok mB /\ look par "m_D*0" = Ok mV /\ isgur_wiseV mb mc p q2 ff0 par = Ok ff /\
  exists A0 A12, od_get "A0"%string ff0 = Some A0 /\ od_get "A12"%string ff0 = Some A12 /\ (q2 = 0 -> A0 * (mB ^ 2 - mV ^ 2) = 8 * mB * mV * A12).
Proof.
  intros H. unfold clnexp_ff in H. bi H pd Epd. bi H mB EmB. bi H mV EmV. bi H w Ew. bi H sw Esw. bi H zz Ezz. bi H sm Esm. bi H RV ERV. bi H hA EhA. bi H R1 ER1. bi H R2 ER2. bi H rho2 Erho2. bi H w0 Ew0. bi H R00 ER00.
  bi H x0 Ex0. bi H x2 Ex2. bi H x1 Ex1. bi H A12 EA12. unfold lookd in Epd. destruct (String.eqb_spec p "B->D*") as [e | e]; [| discriminate Epd]. injection Epd as <-. subst p. split; [reflexivity |].
  exists mB, mV. eexists. refine (conj EmB (conj EmV (conj H _))). eexists _, _. refine (conj eq_refl (conj eq_refl _)). intros ->.
  apply pdiv_ok in Ew as (N1 & ->). apply pdiv_ok in Ew0 as (_ & ->). apply psqrt_ok in Esm as (P & ->). apply pdiv_ok in ERV as (N2 & ->). apply pdiv_ok in ER00 as (N3 & ->). apply pdiv_ok in Ex0 as (N4 & ->). apply pdiv_ok in Ex2 as (_ & ->). apply pdiv_ok in EA12 as (N5 & ->).
  assert (V : mV <> 0) by (intros ->; apply N1; ring). assert (B : mB <> 0) by (intros ->; apply N1; ring).
  set (s := sqrt (mB * mV)) in *. assert (S2 : s * s = mB * mV) by (unfold s; apply sqrt_sqrt; exact P). assert (S0 : s <> 0) by (intros X; rewrite X in S2; apply N1; replace (2 * mB * mV) with (2 * (mB * mV)) by ring; rewrite <- S2; ring).
  set (y := 1 - _ + _ - _). clearbody y. rewrite Rminus_0_r. set (w := (mB ^ 2 + mV ^ 2) / (2 * mB * mV)).
  set (R2' := R2 + 11 / 100 * (w - 1) - 6 / 100 * (w - 1) ^ 2).
  replace ((mB + mV - mB * R2' + mV * R2') / (2 * mV) - (- (11 / 100) * (w - 1) + 1 / 100 * (w - 1) ^ 2) - 11 / 100 * (w - 1) + 1 / 100 * (w - 1) ^ 2) with ((mB + mV - mB * R2' + mV * R2') / (2 * mV)) by ring.
  assert (EW : w + 1 = (mB + mV) ^ 2 / (2 * (s * s))) by (unfold w; rewrite S2; field; auto). rewrite EW. clearbody R2'. clear EW. clearbody w.
  replace (mB ^ 4 + (mV ^ 2 - 0) ^ 2 - 2 * mB ^ 2 * (mV ^ 2 + 0)) with ((mB ^ 2 - mV ^ 2) ^ 2) by ring. rewrite !Rminus_0_r.
  replace (hA * y * (2 * s / (mB + mV)) * ((mB + mV) ^ 2 / (2 * (s * s))) / 2) with (hA * y * (mB + mV) / (2 * s)) by (field; auto).
  field. auto.
Qed.

(** *** Lambda_b -> Lambda *)
Lemma sseL_inv q2 par n ff par' : sse_ffL "Lambdab->Lambda" q2 par n = (Ok ff, par') -> exists mX mP aA aT,
  look par "m_Lambda" = Ok mX /\ look par "m_K+" = Ok mP /\ look par "Lambdab->Lambda SSE a0_fA0" = Ok aA /\ look par "Lambdab->Lambda SSE a0_fT50" = Ok aT /\
  par' = od_set "Lambdab->Lambda SSE a0_fT5perp"%string aT (od_set "Lambdab->Lambda SSE a0_fAperp"%string aA par) /\
  mapM (fun i => do a <- coeffs par' "Lambdab->Lambda SSE" i (seq 0 n); do x <- pdiv q2 (mresL i ^ 2); do p <- pdiv 1 (1 - x); do mLb <- look par' "m_Lambdab"; do mB <- look par' "m_B+";
         do zq <- z mB mP q2 (T0val ((mLb - mX) ^ 2)%R); do s <- npdot a (firstn n [1; zq; zq ^ 2]%R); Ok (i, (p * s)%R)) namesL = Ok ff.
Proof.
  unfold sse_ffL. destruct (bind _ _) as [((mX, mP), aA) | e] eqn:E; [| intros H; discriminate H]. cbn [append] in *.
  bi E pd Epd. injection Epd as <-. bi E mX' EX. bi E mP' EP. bi E a Ea. injection E as <- <- <-.
  rewrite look_set_ne by discriminate. destruct (look par "Lambdab->Lambda SSE a0_fT50") as [aT | e] eqn:ET; intros H; [| discriminate H]. apply pair_equal_spec in H as (H1 & H2).
  exists mX', mP', a, aT. subst par'. exact (conj EX (conj EP (conj Ea (conj eq_refl (conj eq_refl H1))))).
Qed.
Lemma npdot_z0 a r n v : npdot (a :: r) (firstn n [1; 0; 0 ^ 2]) = Ok v -> v = a.
Proof. replace (0 ^ 2) with 0 by ring. apply npdot_0. Qed.
Lemma sseL_value par' n i mX mP mLb y : (0 < n)%nat -> look par' "m_Lambdab" = Ok mLb ->
  (do a <- coeffs par' "Lambdab->Lambda SSE" i (seq 0 n); do x <- pdiv ((mLb - mX) ^ 2) (mresL i ^ 2); do p <- pdiv 1 (1 - x); do mLb1 <- look par' "m_Lambdab"; do mB <- look par' "m_B+";
         do zq <- z mB mP ((mLb - mX) ^ 2) (T0val ((mLb1 - mX) ^ 2)%R); do s <- npdot a (firstn n [1; zq; zq ^ 2]%R); Ok (i, (p * s)%R)) = Ok y ->
  exists a0, look par' ("Lambdab->Lambda SSE a0_" ++ i)%string = Ok a0 /\ snd y = 1 / (1 - (mLb - mX) ^ 2 / mresL i ^ 2) * a0.
Proof.
  intros N L H. bi H a Ea. bi H x Ex. bi H p Ep. bi H mLb' EL. bi H mB EB. same L EL. bi H zq Ez. bi H s Es. injection H as <-. apply pdiv_ok in Ex as (_ & ->). apply pdiv_ok in Ep as (_ & ->).
  assert (zq = 0). { unfold z in Ez. cbn [bind] in Ez. bi Ez u Eu. bi Ez v Ev. rewrite Eu in Ev. injection Ev as <-. apply pdiv_ok in Ez as (_ & ->). unfold Rdiv. ring. } subst zq.
  destruct n as [| n]; [lia |]. apply coeffs_cons in Ea as (a0 & r & E0 & _ & ->). apply npdot_z0 in Es as ->. exists a0. split; [exact E0 | reflexivity].
Qed.
Lemma sseL_endpoint par n ff par' mLb mX : (0 < n)%nat -> look par "m_Lambdab" = Ok mLb -> look par "m_Lambda" = Ok mX -> sse_ffL "Lambdab->Lambda" ((mLb - mX) ^ 2) par n = (Ok ff, par') ->
  exists u v, od_get "fAperp"%string ff = Some u /\ od_get "fA0"%string ff = Some u /\ od_get "fT5perp"%string ff = Some v /\ od_get "fT50"%string ff = Some v.
Proof.
  intros N LL LX H. apply sseL_inv in H as (mX' & mP & aA & aT & EX & EP & EA & ET & Ep & H). same LX EX.
  assert (LL' : look par' "m_Lambdab" = Ok mLb) by (subst par'; rewrite !look_set_ne by discriminate; exact LL).
  assert (G : forall i, In i namesL -> exists a0, look par' ("Lambdab->Lambda SSE a0_" ++ i)%string = Ok a0 /\ od_get i ff = Some (1 / (1 - (mLb - mX) ^ 2 / mresL i ^ 2) * a0)).
  { intros i I. match type of H with mapM ?f _ = _ => destruct (mapM_od f namesL ff i) as (v & E & G) end; [| exact H | exact I |].
    - intros j y Hj. bi Hj a Ea. bi Hj x Ex. bi Hj p Epp. bi Hj m1 E1. bi Hj m2 E2. bi Hj zq Ez. bi Hj s Es. injection Hj as <-. reflexivity.
    - destruct (sseL_value par' n i mX mP mLb (i, v) N LL' E) as (a0 & E0 & E1). cbn [snd] in E1. exists a0. split; [exact E0 | rewrite G, E1; reflexivity]. }
  destruct (G "fAperp"%string) as (a1 & L1 & G1); [cbn; auto |]. destruct (G "fA0"%string) as (a2 & L2 & G2); [cbn; auto |]. destruct (G "fT5perp"%string) as (a3 & L3 & G3); [cbn; tauto |]. destruct (G "fT50"%string) as (a4 & L4 & G4); [cbn; tauto |].
  subst par'. cbn [append] in L1, L2, L3, L4. rewrite look_set_ne, look_set_eq in L1 by discriminate. rewrite !look_set_ne in L2 by discriminate. rewrite look_set_eq in L3. rewrite !look_set_ne in L4 by discriminate.
  rewrite EA in L2. rewrite ET in L4. injection L1 as <-. injection L2 as <-. injection L3 as <-. injection L4 as <-.
  eexists _, _. refine (conj G1 (conj G2 (conj G3 G4))).
Qed.
