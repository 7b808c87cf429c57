(** * Proofs about form factors: relations at zero momentum transfer *)
From Coq Require Import Reals Lra Psatz.
From Verif Require Import Base BaseLemmas FormFactors_Model FormFactors_Spec FormFactors_Proofs.
Local Open Scope R_scope.

Lemma poleP_0 m : poleP m 0 = Ok 1.
Proof. unfold poleP. destruct (Req_EM_T m 0) as [_ | H]; [reflexivity |]. assert (m ^ 2 <> 0) by (apply pow_nonzero; exact H). rewrite pdiv_is by assumption. cbn [bind]. rewrite pdiv_is; [f_equal; field; auto |]. replace (1 - 0 / m ^ 2) with 1 by (field; auto). lra. Qed.
Lemma poleV_0 i mres v : poleV i mres 0 = Ok v -> v = 1.
Proof.
  unfold poleV. intros H. inv H. apply pdiv_ok in E as (N & ->). apply pdiv_ok in H as (_ & ->).
  replace (0 / nth (mresV i) mres 0 ^ 2) with 0 by (unfold Rdiv; ring). lra.
Qed.
Tactic Notation "bi" hyp(H) ident(x) ident(E) := apply bind_ok in H; destruct H as (x & E & H); cbv beta iota in H.
Lemma mapM_len {A B} (f : A -> result B) l ys : mapM f l = Ok ys -> length ys = length l.
Proof. revert ys. induction l as [| a l IH]; intros ys H; cbn [mapM] in H; [injection H as <-; reflexivity |]. bi H y Ey. bi H r Er. injection H as <-. cbn [length]. f_equal. now apply IH. Qed.
Lemma rsum_app a b : rsum_ (a ++ b) = rsum_ a + rsum_ b.
Proof. induction a as [| x a IH]; cbn [app rsum_]; [ring | rewrite IH; ring]. Qed.
Lemma zipmul_app a b c d : length a = length c -> zipmul (a ++ b) (c ++ d) = (zipmul a c ++ zipmul b d)%list.
Proof. revert c. induction a as [| x a IH]; intros [| y c] H; cbn in *; try discriminate H; [reflexivity |]. f_equal. apply IH. lia. Qed.
Lemma sum_f0_snoc a x Z : sum_f0 (a ++ [x]) Z = sum_f0 a Z + x * Z ^ length a.
Proof.
  unfold sum_f0. rewrite app_length. cbn [length]. rewrite seq_app, map_app. rewrite zipmul_app by (now rewrite map_length, seq_length).
  rewrite rsum_app. cbn [seq map zipmul rsum_]. rewrite Nat.add_0_l. ring.
Qed.
Lemma sum_f0_poly a Z : sum_f0 a Z = poly a Z.
Proof.
  unfold sum_f0. assert (G : forall k, rsum_ (zipmul a (map (fun k => Z ^ k) (seq k (length a)))) = Z ^ k * poly a Z).
  { induction a as [| c a IH]; intros k; cbn [length seq map zipmul rsum_ poly]; [ring |]. rewrite IH. cbn [pow]. ring. }
  rewrite G. cbn [pow]. ring.
Qed.
Lemma coeffs_length par pre i js l : coeffs par pre i js = Ok l -> length l = length js.
Proof. unfold coeffs. intros H. now apply mapM_len in H. Qed.

Lemma append_assoc' (a b c : string) : (a ++ b ++ c = (a ++ b) ++ c)%string.
Proof. induction a as [| x a IH]; cbn; [reflexivity | now rewrite IH]. Qed.
(** *** BSZ *)
Lemma zs_0 mB mM t0 l : bsz_zs mB mM 0 t0 = Ok l -> l = [1; 0; 0].
Proof. unfold bsz_zs. intros H. inv H. inv H. rewrite E in E0. injection E0 as <-. injection H as <-. repeat f_equal; ring. Qed.
Lemma npdot_0 a r n v : npdot (a :: r) (firstn n [1; 0; 0]) = Ok v -> v = a.
Proof.
  unfold npdot. destruct (Nat.eqb_spec (length (a :: r)) (length (firstn n [1; 0; 0]))) as [E | E]; [| discriminate]. intros H. injection H as <-. cbn [length] in E.
  destruct n as [| [| [| n]]]; cbn [firstn] in *; cbn [length] in E.
  - discriminate E.
  - cbn [zipmul]. destruct r; cbn [zipmul rsum_]; ring.
  - destruct r as [| b r]; cbn [length] in E; [discriminate E |]. destruct r; cbn [zipmul rsum_]; ring.
  - destruct r as [| b [| c r]]; cbn [length] in E; try (destruct n; discriminate E). destruct n; cbn [firstn] in *; destruct r; cbn [length] in E; try discriminate E; cbn [zipmul rsum_]; ring.
Qed.
Lemma coeffs_cons par pre i n l : coeffs par pre i (seq 0 (S n)) = Ok l ->
  exists x r, look par (pre ++ " a0_" ++ i)%string = Ok x /\ coeffs par pre i (seq 1 n) = Ok r /\ l = x :: r.
Proof. unfold coeffs. cbn [seq mapM]. intros H. inv H. inv H. injection H as <-. exists v, v0. refine (conj _ (conj E0 eq_refl)). exact E. Qed.
Lemma bszP_0 pdict p par n t0 ff : (0 < n)%nat -> bsz_ffP pdict p 0 par n t0 = Ok ff -> exists v, od_get "f+"%string ff = Some v /\ od_get "f0"%string ff = Some v.
Proof.
  intros N H. unfold bsz_ffP in H. bi H pd Epd. bi H mpl Empl. bi H m0 Em0. bi H mB EmB. bi H mP EmP. bi H ap Eap. bi H aT EaT. bi H a00 Ea00. bi H a0 Ea0.
  rewrite !poleP_0 in H. cbn [bind] in H. bi H zs Ezs. apply zs_0 in Ezs as ->. bi H f1 Ef1. bi H f2 Ef2. bi H f3 Ef3. injection H as <-.
  destruct n as [| n]; [lia |]. apply coeffs_cons in Eap as (x & r & Ex & _ & ->).
  assert (Ea : x = a00). { assert (Ex' : look par ((p ++ " BSZ") ++ " a0_f+") = Ok x) by exact Ex. rewrite <- append_assoc' in Ex'. change (look par (p ++ " BSZ a0_f+") = Ok x)%string in Ex'. rewrite Ex' in Ea00. now injection Ea00. }
  apply npdot_0 in Ef1. apply npdot_0 in Ef3. subst f1 f3 x. exists (1 * a00). split; reflexivity.
Qed.

(** *** BCL *)
Lemma par_f_ok (f : list R -> R -> R) mB mP a q2 t0 s : (do zq <- z mB mP q2 t0; Ok (f a zq)) = Ok s -> exists zq, z mB mP q2 t0 = Ok zq /\ s = f a zq.
Proof. intros H. bi H zq E. injection H as <-. eauto. Qed.
Lemma iw_0 p par n t0 ff : (0 < n)%nat -> bcl_ff_isgurwise p 0 par n t0 = Ok ff -> exists v, od_get "f+"%string ff = Some v /\ od_get "f0"%string ff = Some v.
Proof.
  intros N H. unfold bcl_ff_isgurwise in H. bi H pd Epd. bi H mpl Empl. bi H m0 Em0. bi H mB EmB. bi H mP EmP. bi H ap Eap. bi H a Ea.
  rewrite !poleP_0 in H. cbn [bind] in H. bi H s1 Es1. bi H s2 Es2. bi H z0 Ez0. bi H an Ean. bi H f1 Ef1. bi H f3 Ef3.
  unfold param_fplusT, param_f0 in *. rewrite Ez0 in *. cbn [bind] in *. injection Es1 as Es1. injection Es2 as Es2. injection Ef1 as Ef1. injection Ef3 as Ef3.
  apply coeffs_length in Ea. rewrite seq_length in Ea. rewrite sum_f0_snoc, Ea, Es2 in Ef3. apply pdiv_ok in Ean as (Z0 & ->).
  unfold isgur_wise in H. bi H pd' Epd'. bi H x1 Ex1. bi H x2 Ex2. bi H aT EaT. bi H fp Efp. injection Efp as <-. injection H as <-.
  exists (1 * f1). split; [reflexivity |]. change (Some (1 * f3) = Some (1 * f1)). f_equal. f_equal. rewrite <- Ef3, <- Ef1, <- Es1. field. exact Z0.
Qed.
(** plain BCL: the completing coefficient has the wrong sign *)
Lemma bcl_0 p par n t0 ff : (0 < n)%nat -> match t0 with T0val _ => False | _ => True end -> bcl_ff p 0 par n t0 = Ok ff ->
  exists pd mB mP z0 ap a, bcl_process p = Some pd /\ look par ("m_" ++ fst pd) = Ok mB /\ look par ("m_" ++ snd pd) = Ok mP /\ z mB mP 0 t0 = Ok z0 /\
    coeffs par (p ++ " BCL") "f+" (seq 0 n) = Ok ap /\ coeffs par (p ++ " BCL") "f0" (seq 0 (n - 1)) = Ok a /\
    let chL := match od_get (p ++ " BCL chL")%string par with Some v => v | None => 1 end in
    od_get "f+"%string ff = Some (chL * sum_fplusT ap z0) /\ od_get "f0"%string ff = Some (chL * (2 * poly a z0 - sum_fplusT ap z0)).
Proof.
  intros N T H. unfold bcl_ff in H. bi H pd Epd. bi H mpl Empl. bi H m0 Em0. bi H mB EmB. bi H mP EmP. bi H ap Eap. bi H aT EaT.
  bi H a0 Ea0. rewrite !poleP_0 in H. cbn [bind] in H. bi H f1 Ef1. bi H f2 Ef2. bi H f3 Ef3. injection H as <-.
  replace (match t0 with T0val t => if Req_EM_T t 0 then true else false | _ => false end) with false in Ea0 by (destruct t0; [reflexivity | reflexivity | contradiction]).
  bi Ea0 a Ea. rewrite !poleP_0 in Ea0. cbn [bind] in Ea0. bi Ea0 s1 Es1. bi Ea0 s2 Es2. bi Ea0 z0 Ez0. bi Ea0 an Ean. injection Ea0 as <-.
  unfold param_fplusT, param_f0 in *. rewrite Ez0 in *. cbn [bind] in *. injection Es1 as Es1. injection Es2 as Es2. injection Ef1 as Ef1. injection Ef3 as Ef3.
  pose proof (coeffs_length _ _ _ _ _ Ea) as La. rewrite seq_length in La. rewrite sum_f0_snoc, La, Es2 in Ef3. apply pdiv_ok in Ean as (Z0 & ->).
  exists pd, mB, mP, z0, ap, a. refine (conj _ (conj EmB (conj EmP (conj Ez0 (conj Eap (conj Ea _)))))).
  { unfold lookd in Epd. destruct (bcl_process p); [now injection Epd as -> | discriminate Epd]. }
  cbv zeta. set (chL := match od_get _ par with Some v => v | None => 1 end). split.
  - change (Some (chL * 1 * f1) = Some (chL * sum_fplusT ap z0)). f_equal. rewrite <- Ef1. ring.
  - change (Some (chL * 1 * f3) = Some (chL * (2 * poly a z0 - sum_fplusT ap z0))). f_equal. rewrite <- Ef3, <- sum_f0_poly, Es2, Es1. field. exact Z0.
Qed.
Lemma d_bcl_0 p par n t0 ff : (0 < n)%nat -> d_bcl_ff p 0 par n t0 = Ok ff ->
  exists pd mB mP z0 ap a, d_process p = Some pd /\ look par ("m_" ++ fst pd) = Ok mB /\ look par ("m_" ++ snd pd) = Ok mP /\ z mB mP 0 t0 = Ok z0 /\
    coeffs par (p ++ " BCL") "f+" (seq 0 n) = Ok ap /\ coeffs par (p ++ " BCL") "f0" (seq 0 (n - 1)) = Ok a /\
    od_get "f+"%string ff = Some (sum_fplusT ap z0) /\ od_get "f0"%string ff = Some (2 * poly a z0 - sum_fplusT ap z0).
Proof.
  intros N H. unfold d_bcl_ff in H. bi H pd Epd. bi H mpl Empl. bi H m0 Em0. bi H mB EmB. bi H mP EmP. bi H ap Eap. bi H aT EaT. bi H a Ea.
  rewrite !poleP_0 in H. cbn [bind] in H. bi H s1 Es1. bi H s2 Es2. bi H z0 Ez0. bi H an Ean. bi H f1 Ef1. bi H f2 Ef2. bi H f3 Ef3. injection H as <-.
  unfold param_fplusT, param_f0 in *. rewrite Ez0 in *. cbn [bind] in *. injection Es1 as Es1. injection Es2 as Es2. injection Ef1 as Ef1. injection Ef3 as Ef3.
  pose proof (coeffs_length _ _ _ _ _ Ea) as La. rewrite seq_length in La. rewrite sum_f0_snoc, La, Es2 in Ef3. apply pdiv_ok in Ean as (Z0 & ->).
  exists pd, mB, mP, z0, ap, a. refine (conj _ (conj EmB (conj EmP (conj Ez0 (conj Eap (conj Ea _)))))).
  { unfold lookd in Epd. destruct (d_process p); [now injection Epd as -> | discriminate Epd]. }
  split.
  - change (Some (1 * f1) = Some (sum_fplusT ap z0)). f_equal. rewrite <- Ef1. ring.
  - change (Some (1 * f3) = Some (2 * poly a z0 - sum_fplusT ap z0)). f_equal. rewrite <- Ef3, <- sum_f0_poly, Es2, Es1. field. exact Z0.
Qed.
(** t0 = 0: z(0) = 0 *)
Lemma sum_fplusT_0 x r : sum_fplusT (x :: r) 0 = x.
Proof.
  unfold sum_fplusT. cbn [length seq map zipmul rsum_]. replace (rsum_ _) with 0; [cbn [INR pow]; unfold Rdiv; ring |].
  symmetry. set (n := S (length r)). assert (G : forall k l, (0 < k)%nat -> rsum_ (zipmul l (map (fun k => 0 ^ k - (-1) ^ (n - k) * INR k / INR n * 0 ^ n) (seq k (length r)))) = 0).
  { generalize (length r) as m. intros m. induction m as [| m IH]; intros k l K; cbn [seq map]; [destruct l; reflexivity |]. destruct l as [| y l]; cbn [zipmul rsum_]; [reflexivity |]. rewrite IH by lia. unfold n. rewrite !pow_ne_zero by lia. ring. }
  apply G. lia.
Qed.
Lemma bcl_t00 p par n ff : (0 < n)%nat -> bcl_ff p 0 par n (T0val 0) = Ok ff -> exists v, od_get "f+"%string ff = Some v /\ od_get "f0"%string ff = Some v.
Proof.
  intros N H. unfold bcl_ff in H. bi H pd Epd. bi H mpl Empl. bi H m0 Em0. bi H mB EmB. bi H mP EmP. bi H ap Eap. bi H aT EaT.
  bi H a0 Ea0. rewrite !poleP_0 in H. cbn [bind] in H. bi H f1 Ef1. bi H f2 Ef2. bi H f3 Ef3. injection H as <-.
  destruct (Req_EM_T 0 0) as [_ | X]; [| now destruct X]. bi Ea0 r Er. injection Ea0 as <-.
  destruct n as [| n]; [lia |]. apply coeffs_cons in Eap as (x & r' & Ex & _ & ->). cbn [firstn app] in Ef3.
  unfold param_fplusT, param_f0 in *. bi Ef1 zq Ez. rewrite Ez in *. cbn [bind] in *. injection Ef1 as Ef1. injection Ef3 as Ef3.
  assert (zq = 0). { unfold z in Ez. cbn [bind] in Ez. bi Ez a Ea. bi Ez b Eb. rewrite Ea in Eb. injection Eb as <-. apply pdiv_ok in Ez as (_ & ->). unfold Rdiv. ring. } subst zq.
  rewrite sum_fplusT_0 in Ef1. rewrite sum_f0_poly in Ef3. cbn [poly] in Ef3. subst f1 f3.
  eexists. split; [reflexivity |]. cbn [od_get]. change (Some (match od_get (p ++ " BCL chL")%string par with Some v => v | None => 1 end * 1 * (x + 0 * poly r 0)) = Some (match od_get (p ++ " BCL chL")%string par with Some v => v | None => 1 end * 1 * x)). f_equal. ring.
Qed.
Lemma lmvd_0 p par n t0 ff : lmvd_ff p 0 par n t0 = Ok ff -> exists v, od_get "f+"%string ff = Some v /\ od_get "f0"%string ff = Some v.
Proof.
  intros H. unfold lmvd_ff in H. bi H pd Epd. bi H mpl Empl. bi H m0 Em0. bi H mB EmB. bi H mP EmP. bi H bp0 Ebp0. bi H bp Ebp. bi H bT0 EbT0. bi H bT EbT. bi H zq Ezq. bi H z0 Ez0.
  rewrite !poleP_0 in H. cbn [bind] in H. bi H b0 Eb0. injection H as <-. rewrite Ezq in Ez0. injection Ez0 as <-.
  assert (Z : forall (g : nat -> R) l js, (forall k, g k = 0) -> rsum_ (zipmul l (map g js)) = 0).
  { intros g l js G. revert l. induction js as [| j js IH]; intros [| y l]; cbn [map zipmul rsum_]; try reflexivity. rewrite IH, G. ring. }
  exists (1 * lmvd_fplusT (bp0 :: bp) zq zq). split; [reflexivity |]. change (Some (1 * lmvd_f0 (bp0 :: b0) zq zq) = Some (1 * lmvd_fplusT (bp0 :: bp) zq zq)). f_equal. f_equal.
  unfold lmvd_f0, lmvd_fplusT. rewrite !Z; [reflexivity | intros k; ring | intros k; ring].
Qed.
Lemma cln_0 h p par a b c ff : cln_ffP h p 0 par a b c = Ok ff -> exists v, od_get "f+"%string ff = Some v /\ od_get "f0"%string ff = Some v.
Proof.
  intros H. unfold cln_ffP in H. bi H pd Epd. bi H mB EmB. bi H mP EmP. bi H w0 Ew0. bi H zz Ezz. bi H rho2 Erho2. bi H cx Ecx. bi H xi3 Exi3. bi H xi Exi. bi H L EL. bi H l El.
  unfold h_to_f in H. bi H r Er. bi H s Es. bi H fp Efp. bi H fm Efm. bi H x Ex. bi H t Et. injection H as <-. exists fp. split; [reflexivity |].
  change (Some (fp + x) = Some fp). f_equal. apply pdiv_ok in Ex as (_ & ->). unfold Rdiv. ring.
Qed.
Lemma kpi_0 par ff : kpi_ff par 0 = Ok ff -> exists v, od_get "f+"%string ff = Some v /\ od_get "f0"%string ff = Some v.
Proof.
  intros H. unfold kpi_ff in H. repeat (let x := fresh "x" in let E := fresh "E" in bi H x E; try (apply pdiv_ok in E as (_ & ->))). injection H as <-.
  eexists. split; [reflexivity |].
  match goal with |- od_get _ (_ :: (_, ?b) :: _) = Some ?a => change (Some b = Some a) end.
  f_equal. f_equal. f_equal. unfold Rdiv. ring.
Qed.
