(** * Properties of form factors (C148-C158) *)
From Coq Require Import Reals Lra Psatz.
From Verif Require Import Base BaseLemmas FormFactors_Model FormFactors_Spec FormFactors_Proofs FormFactors_Proofs2 FormFactors_Proofs3 FormFactors_Proofs4 FormFactors_Proofs5.
Local Open Scope R_scope.

(** ** C148: the expansion variable z *)
Definition below (mB mM : R) (t0 : t0arg) : Prop := 0 < mB /\ 0 < mM /\ match t0 with T0val t => t < t_plus mB mM | _ => True end.
(** up to the threshold z is a number in [-1, 1), 0 at t0, strictly decreasing; beyond it an error *)
Theorem C148_range (mB mM q2 : R) (t0 : t0arg) : below mB mM t0 ->
  (q2 <= t_plus mB mM -> exists v, z mB mM q2 t0 = Ok v /\ -1 <= v < 1 /\ (q2 < t_plus mB mM -> -1 < v)) /\
  (t_plus mB mM < q2 -> z mB mM q2 t0 = Err ValueError) /\
  z mB mM (t_zero mB mM t0) t0 = Ok 0 /\
  (forall q2' v v', q2 < q2' -> z mB mM q2 t0 = Ok v -> z mB mM q2' t0 = Ok v' -> v' < v).
Proof.
  intros (B & M & T). pose proof (t_lt mB mM B M t0 T) as L. refine (conj _ (conj _ (conj _ _))).
  - intros Q. exists (zval mB mM q2 t0). split; [now apply z_is |]. now apply zval_range.
  - intros Q. now apply z_err.
  - rewrite z_is by (try assumption; lra). now rewrite zval_zero.
  - intros q2' v v' Q E E'. destruct (Rle_or_lt q2' (t_plus mB mM)) as [U | U]; [| rewrite z_err in E' by assumption; discriminate E'].
    rewrite z_is in E, E' by (try assumption; lra). injection E as <-. injection E' as <-. now apply zval_decr.
Qed.
Print Assumptions C148_range.

(** by default the physical region is mapped to a symmetric interval *)
Theorem C148_default (mB mM : R) : 0 < mB -> 0 < mM ->
  0 <= t_zero mB mM T0none <= t_minus mB mM /\
  exists v, z mB mM 0 T0none = Ok v /\ z mB mM (t_minus mB mM) T0none = Ok (- v) /\
    forall q2, 0 <= q2 <= t_minus mB mM -> exists w, z mB mM q2 T0none = Ok w /\ - v <= w <= v.
Proof.
  intros B M. split; [now apply default_between |]. pose proof (t_lt mB mM B M T0none I) as L. pose proof (tm_lt mB mM B M) as TL. pose proof (tm_nonneg mB mM) as N.
  exists (zval mB mM 0 T0none). rewrite !z_is by (try assumption; lra). rewrite zval_sym by assumption. refine (conj eq_refl (conj eq_refl _)).
  intros q2 (Q1 & Q2). exists (zval mB mM q2 T0none). rewrite z_is by (try assumption; lra). split; [reflexivity |].
  rewrite <- zval_sym by assumption. split.
  - destruct Q2 as [Q2 | ->]; [left; apply zval_decr; try assumption; lra | right; reflexivity].
  - destruct Q1 as [Q1 | <-]; [left; apply zval_decr; try assumption; lra | right; reflexivity].
Qed.
Print Assumptions C148_default.

(** with t0 = t_- the recoil is an exact function of z, and the monomials are its Taylor polynomials *)
Theorem C148_recoil (mB mM q2 : R) : 0 < mB -> 0 < mM -> q2 < t_plus mB mM ->
  exists v, z mB mM q2 T0tm = Ok v /\ recoil mB mM q2 = (1 + 6 * v + v ^ 2) / (1 - v) ^ 2.
Proof.
  intros B M Q. pose proof (t_lt mB mM B M T0tm I) as L. exists (zval mB mM q2 T0tm). split; [apply z_is; try assumption; lra |].
  destruct (zval_range mB mM q2 T0tm L) as ((_ & U) & _). pose proof (zval_recoil mB mM B M q2 Q) as E. set (v := zval mB mM q2 T0tm) in *.
  replace (recoil mB mM q2) with (1 + 8 * v / (1 - v) ^ 2) by lra. field. lra.
Qed.
Print Assumptions C148_recoil.

Theorem C148_expansion (n m : nat) :
  ((n <= 3)%nat -> (m <= 3)%nat -> exists Mb, forall x, Rabs x <= 1 / 2 ->
     exists t, w_minus_1_pow_n x n m = Ok t /\ Rabs (((1 + 6 * x + x ^ 2) / (1 - x) ^ 2 - 1) ^ n - t) <= Mb * Rabs x ^ (m + 1)) /\
  ((3 < n)%nat \/ (3 < m)%nat -> forall x, w_minus_1_pow_n x n m = Err ValueError).
Proof.
  split.
  - intros N M.
    assert (G : forall T a k, (forall x, w_minus_1_pow_n x n m = Ok (T x)) ->
      (forall x, x <> 1 -> ((1 + 6 * x + x ^ 2) / (1 - x) ^ 2 - 1) ^ n - T x = x ^ (m + 1) * (poly a x / (1 - x) ^ k)) ->
      exists Mb, forall x, Rabs x <= 1 / 2 -> exists t, w_minus_1_pow_n x n m = Ok t /\ Rabs (((1 + 6 * x + x ^ 2) / (1 - x) ^ 2 - 1) ^ n - t) <= Mb * Rabs x ^ (m + 1)).
    { intros T a k E1 E2. destruct (taylor_bound (fun x => ((1 + 6 * x + x ^ 2) / (1 - x) ^ 2 - 1) ^ n) T k (m + 1) a E2) as (Mb & HM). exists Mb. intros x X. exists (T x). split; [apply E1 | now apply HM]. }
    assert (NE : forall x, x <> 1 -> 1 - x <> 0) by (intros x hx hx'; apply hx; lra).
    destruct n as [| [| [| [| n]]]]; [| | | | lia].
    + apply (G (fun _ => 1) [] 0%nat).
      * intros x. destruct m as [| [| [| [| m]]]]; [reflexivity.. | lia].
      * intros x hx. cbn [poly pow]. unfold Rdiv. ring.
    + destruct m as [| [| [| [| m]]]]; [| | | | lia].
      * apply (G (fun _ => 0) [8] 2%nat); [intros x; cbn; f_equal; ring | intros x hx; specialize (NE x hx); cbn [poly Nat.add]; field; exact NE].
      * apply (G (fun x => 8 * x) [16; -8] 2%nat); [intros x; cbn; f_equal; ring | intros x hx; specialize (NE x hx); cbn [poly Nat.add]; field; exact NE].
      * apply (G (fun x => 8 * x + 16 * x ^ 2) [24; -16] 2%nat); [intros x; cbn; f_equal; ring | intros x hx; specialize (NE x hx); cbn [poly Nat.add]; field; exact NE].
      * apply (G (fun x => 8 * x + 16 * x ^ 2 + 24 * x ^ 3) [32; -24] 2%nat); [intros x; cbn; f_equal; ring | intros x hx; specialize (NE x hx); cbn [poly Nat.add]; field; exact NE].
    + destruct m as [| [| [| [| m]]]]; [| | | | lia].
      * apply (G (fun _ => 0) [0; 64] 4%nat); [intros x; cbn; f_equal; ring | intros x hx; specialize (NE x hx); cbn [poly Nat.add]; field; exact NE].
      * apply (G (fun x => 0) [64] 4%nat); [intros x; cbn; f_equal; ring | intros x hx; specialize (NE x hx); cbn [poly Nat.add]; field; exact NE].
      * apply (G (fun x => 64 * x ^ 2) [256; -384; 256; -64] 4%nat); [intros x; cbn; f_equal; ring | intros x hx; specialize (NE x hx); cbn [poly Nat.add]; field; exact NE].
      * apply (G (fun x => 64 * x ^ 2 + 256 * x ^ 3) [640; -1280; 960; -256] 4%nat); [intros x; cbn; f_equal; ring | intros x hx; specialize (NE x hx); cbn [poly Nat.add]; field; exact NE].
    + destruct m as [| [| [| [| m]]]]; [| | | | lia].
      * apply (G (fun _ => 0) [0; 0; 512] 6%nat); [intros x; cbn; f_equal; ring | intros x hx; specialize (NE x hx); cbn [poly Nat.add]; field; exact NE].
      * apply (G (fun _ => 0) [0; 512] 6%nat); [intros x; cbn; f_equal; ring | intros x hx; specialize (NE x hx); cbn [poly Nat.add]; field; exact NE].
      * apply (G (fun _ => 0) [512] 6%nat); [intros x; cbn; f_equal; ring | intros x hx; specialize (NE x hx); cbn [poly Nat.add]; field; exact NE].
      * apply (G (fun x => 512 * x ^ 3) [3072; -7680; 10240; -7680; 3072; -512] 6%nat); [intros x; cbn; f_equal; ring | intros x hx; specialize (NE x hx); cbn [poly Nat.add]; field; exact NE].
  - intros H x. unfold w_minus_1_pow_n. destruct (Nat.ltb_spec 3 m); [reflexivity |]. destruct (Nat.ltb_spec 3 n); [reflexivity | lia].
Qed.
Print Assumptions C148_expansion.
Example ex_below : below 5 1 T0none /\ below 5 1 (T0val 12) /\ 0 < t_minus 5 1 < t_plus 5 1.
Proof. unfold below, t_plus, t_minus. lra. Qed.

(** ** C149: at zero momentum transfer the vector and scalar form factors coincide *)
Open Scope string_scope.
Theorem C149_zero_momentum (h : hq) (p name : string) (par : params) (ff : od string R) :
  ~ In name ["BCL2"; "BCL3"; "BCL4"] -> implP h p name par 0 = Ok ff -> exists v, od_get "f+" ff = Some v /\ od_get "f0" ff = Some v.
Proof.
  intros N H. unfold implP in H.
  destruct (String.eqb p "B->K" || String.eqb p "B->pi" || String.eqb p "B->D")%bool.
  - destruct (String.eqb_spec name "BSZ3"); [apply bszP_0 in H; [exact H | lia] |].
    destruct (String.eqb_spec name "BCL3"); [destruct N; subst; cbn; auto |].
    destruct (String.eqb_spec name "BCL3 t0=0"); [apply bcl_t00 in H; [exact H | lia] |].
    destruct (String.eqb_spec name "BCL4"); [destruct N; subst; cbn; auto |].
    destruct (String.eqb_spec name "BCL4-LMVD"); [apply lmvd_0 in H; exact H |].
    destruct (String.eqb_spec name "BCL3-IW"); [apply iw_0 in H; [exact H | lia] |].
    destruct (String.eqb_spec name "BCL4-IW"); [apply iw_0 in H; [exact H | lia] |].
    destruct (String.eqb_spec name "BCL3-IW-t0max"); [apply iw_0 in H; [exact H | lia] |].
    destruct (String.eqb_spec name "BCL4-IW-t0max"); [apply iw_0 in H; [exact H | lia] |].
    destruct (String.eqb name "CLN" && String.eqb p "B->D")%bool; [apply cln_0 in H; exact H | discriminate H].
  - destruct (String.eqb p "D->pi" || String.eqb p "D->K")%bool.
    + destruct (String.eqb_spec name "BSZ2"); [apply bszP_0 in H; [exact H | lia] |].
      destruct (String.eqb_spec name "BCL2"); [destruct N; subst; cbn; auto |].
      destruct (String.eqb_spec name "BSZ3"); [apply bszP_0 in H; [exact H | lia] | discriminate H].
    + destruct (String.eqb p "K->pi" && String.eqb name "dispersive + pole")%bool; [apply kpi_0 in H; exact H | discriminate H].
Qed.
Print Assumptions C149_zero_momentum.

(** a dictionary for which the implementations work *)
Definition exP (a0 a1 a2 : R) : params :=
  [("m_B0", 5); ("m_K0", 1); ("B->K BCL m+", 0); ("B->K BCL m0", 0); ("B->K IW a_T", 0);
   ("B->K BCL a0_f+", a0); ("B->K BCL a1_f+", a1); ("B->K BCL a2_f+", a2); ("B->K BCL a0_fT", 0); ("B->K BCL a1_fT", 0); ("B->K BCL a2_fT", 0); ("B->K BCL a0_f0", 0); ("B->K BCL a1_f0", 0)].
Lemma z51_pos : z 5 1 0 T0none = Ok (zval 5 1 0 T0none) /\ 0 < zval 5 1 0 T0none.
Proof.
  assert (B : 0 < 5) by lra. assert (M : 0 < 1) by lra. pose proof (t_lt 5 1 B M T0none I) as L.
  assert (P : 0 < t_zero 5 1 T0none).
  { unfold t_zero, t_plus, t_minus. assert (sqrt ((5 + 1) ^ 2 * ((5 + 1) ^ 2 - (5 - 1) ^ 2)) < 36); [| lra]. apply Rsqr_incrst_0; [| apply sqrt_pos | lra]. rewrite Rsqr_sqrt by lra. unfold Rsqr. lra. }
  split; [apply z_is; try assumption; unfold t_plus; lra |]. assert (D : zval 5 1 (t_zero 5 1 T0none) T0none < zval 5 1 0 T0none) by (apply zval_decr; [exact L | exact P | lra]). rewrite (zval_zero 5 1 T0none L) in D. exact D.
Qed.
Lemma poleP0 q2 : poleP 0 q2 = Ok 1.
Proof. unfold poleP. destruct (Req_EM_T 0 0) as [_ | X]; [reflexivity | now destruct X]. Qed.
Example ex_iw (h : hq) : exists ff, implP h "B->K" "BCL3-IW" (exP 1 2 3) 0 = Ok ff.
Proof.
  destruct z51_pos as (Ez & P). change (implP h "B->K" "BCL3-IW" (exP 1 2 3) 0) with (bcl_ff_isgurwise "B->K" 0 (exP 1 2 3) 3 T0none). unfold bcl_ff_isgurwise.
  rewrite (eq_refl : lookd bcl_process "B->K" = (Ok ("B0", "K0") : result (string * string))). cbn [bind fst snd append].
  rewrite (eq_refl : look (exP 1 2 3) "B->K BCL m+" = (Ok 0 : result R)). rewrite (eq_refl : look (exP 1 2 3) "B->K BCL m0" = (Ok 0 : result R)). cbn [bind].
  rewrite (eq_refl : look (exP 1 2 3) "m_B0" = (Ok 5 : result R)). rewrite (eq_refl : look (exP 1 2 3) "m_K0" = (Ok 1 : result R)). cbn [bind].
  rewrite (eq_refl : coeffs (exP 1 2 3) "B->K BCL" "f+" (seq 0 3) = (Ok [1; 2; 3]%R : result (list R))). rewrite (eq_refl : coeffs (exP 1 2 3) "B->K BCL" "f0" (seq 0 (3 - 1)) = (Ok [0; 0]%R : result (list R))). cbn [bind].
  rewrite !poleP0. unfold param_fplusT, param_f0. rewrite Ez. cbn [bind]. rewrite pdiv_is by (apply pow_nonzero; lra). cbn [bind]. eexists. reflexivity.
Qed.

(** ** C150: the plain BCL implementations do not satisfy f+(0) = f0(0): the completing coefficient has the wrong sign *)
Theorem C150_plain_bcl_refuted (h : hq) (p name : string) (n : nat) (par : params) (ff : od string R) :
  In (name, n) [("BCL3", 3%nat); ("BCL4", 4%nat)] -> In p ["B->K"; "B->pi"; "B->D"] -> implP h p name par 0 = Ok ff ->
  exists mB mP z0 a v w, look par (fst (massesP p name)) = Ok mB /\ look par (snd (massesP p name)) = Ok mP /\ z mB mP 0 T0none = Ok z0 /\
    mapM (look par) (firstn (n - 1) [p ++ " BCL a0_f0"; p ++ " BCL a1_f0"; p ++ " BCL a2_f0"]) = Ok a /\
    od_get "f+" ff = Some v /\ od_get "f0" ff = Some w /\
    let chL := match od_get (p ++ " BCL chL") par with Some c => c | None => 1 end in v + w = 2 * (chL * poly a z0).
Proof.
  intros N P H. cbn [In] in P.
  assert (E : implP h p name par 0 = bcl_ff p 0 par n T0none).
  { cbn [In] in N. destruct N as [N | [N | []]]; injection N as <- <-; destruct P as [<- | [<- | [<- | []]]]; reflexivity. }
  assert (n0 : (0 < n)%nat) by (cbn [In] in N; destruct N as [N | [N | []]]; injection N as <- <-; lia).
  rewrite E in H. apply bcl_0 in H as (pd & mB & mP & z0 & ap & a & Hp & HB & HP & Hz & _ & Ha & Hf & H0); [| exact n0 | exact I].
  exists mB, mP, z0, a. eexists _, _. refine (conj _ (conj _ (conj Hz (conj _ (conj Hf (conj H0 _)))))).
  - destruct P as [<- | [<- | [<- | []]]]; injection Hp as <-; cbn [In] in N; destruct N as [N | [N | []]]; injection N as <- <-; exact HB.
  - destruct P as [<- | [<- | [<- | []]]]; injection Hp as <-; cbn [In] in N; destruct N as [N | [N | []]]; injection N as <- <-; exact HP.
  - destruct P as [<- | [<- | [<- | []]]]; cbn [In] in N; destruct N as [N | [N | []]]; injection N as <- <-; exact Ha.
  - cbv zeta. ring.
Qed.
Print Assumptions C150_plain_bcl_refuted.
Theorem C150_plain_bcl_D_refuted (h : hq) (p : string) (par : params) (ff : od string R) : In p ["D->K"; "D->pi"] -> implP h p "BCL2" par 0 = Ok ff ->
  exists a v w, look par (p ++ " BCL a0_f0") = Ok a /\ od_get "f+" ff = Some v /\ od_get "f0" ff = Some w /\ v + w = 2 * a.
Proof.
  intros P H. assert (E : implP h p "BCL2" par 0 = d_bcl_ff p 0 par 2 T0none) by (cbn [In] in P; destruct P as [<- | [<- | []]]; reflexivity). rewrite E in H.
  apply d_bcl_0 in H as (pd & mB & mP & z0 & ap & a & Hp & HB & HP & Hz & _ & Ha & Hf & H0); [| lia].
  assert (X : exists x, look par (p ++ " BCL a0_f0") = Ok x /\ a = [x]).
  { unfold coeffs in Ha. cbn [Nat.sub seq mapM] in Ha. bi Ha x Ex. injection Ha as <-. exists x. split; [| reflexivity]. cbn [In] in P; destruct P as [<- | [<- | []]]; exact Ex. }
  destruct X as (x & Lx & ->). exists x. eexists _, _. refine (conj Lx (conj Hf (conj H0 _))). cbn [poly]. ring.
Qed.
Print Assumptions C150_plain_bcl_D_refuted.
(** a case with f+(0) = 1 and f0(0) = -1 *)
Theorem C150_opposite_sign_refuted (h : hq) : exists par ff, implP h "B->K" "BCL3" par 0 = Ok ff /\ od_get "f+" ff = Some 1 /\ od_get "f0" ff = Some (-1).
Proof.
  exists (exP 1 0 0). destruct z51_pos as (Ez & P). change (implP h "B->K" "BCL3" (exP 1 0 0) 0) with (bcl_ff "B->K" 0 (exP 1 0 0) 3 T0none).
  destruct (bcl_ff "B->K" 0 (exP 1 0 0) 3 T0none) as [ff | e] eqn:E.
  - exists ff. split; [reflexivity |]. apply bcl_0 in E as (pd & mB & mP & z0 & ap & a & Hp & HB & HP & Hz & Hap & Ha & Hf & H0); [| lia | exact I].
    injection Hp as <-. injection HB as <-. injection HP as <-. rewrite Ez in Hz. injection Hz as <-.
    change (coeffs (exP 1 0 0) ("B->K" ++ " BCL") "f+" (seq 0 3)) with (Ok [1; 0; 0]%R : result (list R)) in Hap. injection Hap as <-. change (coeffs (exP 1 0 0) ("B->K" ++ " BCL") "f0" (seq 0 (3 - 1))) with (Ok [0; 0]%R : result (list R)) in Ha. injection Ha as <-.
    change (od_get ("B->K" ++ " BCL chL") (exP 1 0 0)) with (None : option R) in Hf, H0. cbv zeta iota in Hf, H0.
    assert (S : sum_fplusT [1; 0; 0]%R (zval 5 1 0 T0none) = 1) by (unfold sum_fplusT; cbn [length seq map zipmul rsum_ INR pow]; unfold Rdiv; ring). rewrite S in Hf, H0. cbn [poly] in H0. rewrite Hf, H0. split; f_equal; ring.
  - exfalso. revert E. unfold bcl_ff. rewrite (eq_refl : lookd bcl_process "B->K" = (Ok ("B0", "K0") : result (string * string))). cbn [bind fst snd append].
    rewrite (eq_refl : look (exP 1 0 0) "B->K BCL m+" = (Ok 0 : result R)). rewrite (eq_refl : look (exP 1 0 0) "B->K BCL m0" = (Ok 0 : result R)). cbn [bind].
    rewrite (eq_refl : look (exP 1 0 0) "m_B0" = (Ok 5 : result R)). rewrite (eq_refl : look (exP 1 0 0) "m_K0" = (Ok 1 : result R)). cbn [bind].
    rewrite (eq_refl : coeffs (exP 1 0 0) "B->K BCL" "f+" (seq 0 3) = (Ok [1; 0; 0]%R : result (list R))). rewrite (eq_refl : coeffs (exP 1 0 0) "B->K BCL" "fT" (seq 0 3) = (Ok [0; 0; 0]%R : result (list R))). rewrite (eq_refl : coeffs (exP 1 0 0) "B->K BCL" "f0" (seq 0 (3 - 1)) = (Ok [0; 0]%R : result (list R))). cbn [bind].
    rewrite !poleP0. unfold param_fplusT, param_f0. rewrite Ez. cbn [bind]. rewrite pdiv_is by (apply pow_nonzero; lra). cbn [bind]. discriminate.
Qed.
Print Assumptions C150_opposite_sign_refuted.

(** ** C151: no square-root behaviour at the threshold *)
Theorem C151_threshold (h : hq) (p name : string) (par : params) (mB mP mres : R) :
  In name ["BCL2"; "BCL3"; "BCL3 t0=0"; "BCL4"; "BCL4-LMVD"; "BCL3-IW"; "BCL4-IW"; "BCL3-IW-t0max"; "BCL4-IW-t0max"] -> In p ["B->K"; "B->pi"; "B->D"; "D->K"; "D->pi"] ->
  look par (fst (massesP p name)) = Ok mB -> look par (snd (massesP p name)) = Ok mP -> look par (resonance p name) = Ok mres -> 0 < mB -> 0 < mP ->
  exists K (L : string -> R), forall q2 ff i, implP h p name par q2 = Ok ff -> (i = "f+" \/ i = "fT") ->
    exists v, od_get i ff = Some v /\ Rabs (no_pole mres q2 v - L i) <= K * ((mB + mP) ^ 2 - q2) /\ q2 <= (mB + mP) ^ 2.
Proof.
  intros N P HB HP HR B M. change (regular_at (t_plus mB mP) (fun q2 => implP h p name par q2) mres).
  assert (T : match T0val 0 with T0val t => t < t_plus mB mP | _ => True end) by (apply tp_pos; assumption).
  cbn [In] in N, P.
  destruct P as [<- | [<- | [<- | [<- | [<- | []]]]]];
  (destruct N as [<- | [<- | [<- | [<- | [<- | [<- | [<- | [<- | [<- | []]]]]]]]]];
   lazymatch goal with |- regular_at _ (fun q2 => implP h ?pp ?nn par q2) _ =>
     lazymatch constr:((pp, nn)) with
     | ("B->pi", "BCL4-LMVD") => exact (reg_lmvd par 4 T0none mB mP mres HB HP HR B M I)
     | ("B->K", "BCL4-LMVD") => apply regular_err; intros q2 ff H; discriminate H
     | ("B->D", "BCL4-LMVD") => apply regular_err; intros q2 ff H; discriminate H
     | ("D->K", "BCL2") => exact (reg_d "D->K" par 2 T0none ("D0", "K+") mB mP mres eq_refl HB HP HR B M I)
     | ("D->pi", "BCL2") => exact (reg_d "D->pi" par 2 T0none ("D0", "pi+") mB mP mres eq_refl HB HP HR B M I)
     | ("D->K", _) => apply regular_err; intros q2 ff H; discriminate H
     | ("D->pi", _) => apply regular_err; intros q2 ff H; discriminate H
     | (_, "BCL2") => apply regular_err; intros q2 ff H; discriminate H
     | (_, ?nm) =>
       let pd := lazymatch pp with "B->K" => constr:(("B0", "K0")) | "B->pi" => constr:(("B+", "pi0")) | "B->D" => constr:(("B+", "D0")) end in
       lazymatch nm with
       | "BCL3" => exact (reg_bcl pp par 3 T0none pd mB mP mres eq_refl HB HP HR B M I)
       | "BCL4" => exact (reg_bcl pp par 4 T0none pd mB mP mres eq_refl HB HP HR B M I)
       | "BCL3 t0=0" => exact (reg_bcl pp par 3 (T0val 0) pd mB mP mres eq_refl HB HP HR B M T)
       | "BCL3-IW" => exact (reg_iw pp par 3 T0none pd mB mP mres eq_refl HB HP HR B M I)
       | "BCL4-IW" => exact (reg_iw pp par 4 T0none pd mB mP mres eq_refl HB HP HR B M I)
       | "BCL3-IW-t0max" => exact (reg_iw pp par 3 T0tm pd mB mP mres eq_refl HB HP HR B M I)
       | "BCL4-IW-t0max" => exact (reg_iw pp par 4 T0tm pd mB mP mres eq_refl HB HP HR B M I)
       end
     end
   end).
Qed.
Print Assumptions C151_threshold.
Example ex_threshold : look (exP 1 2 3) (fst (massesP "B->K" "BCL3-IW")) = Ok 5 /\ look (exP 1 2 3) (snd (massesP "B->K" "BCL3-IW")) = Ok 1 /\ look (exP 1 2 3) (resonance "B->K" "BCL3-IW") = Ok 0.
Proof. split; [reflexivity | split; reflexivity]. Qed.

(** ** C152: B -> V at zero momentum transfer *)
Theorem C152_zero_momentum (h : hq) (mb mc : R) (p name : string) (par : params) (ff : od string R) : name <> "SSE" -> implV h mb mc p name par 0 = Ok ff ->
  exists mB mV A0 A12, look par (fst (massesV p name)) = Ok mB /\ look par (snd (massesV p name)) = Ok mV /\
    od_get "A0" ff = Some A0 /\ od_get "A12" ff = Some A12 /\ A0 * (mB ^ 2 - mV ^ 2) = 8 * mB * mV * A12 /\
    (name <> "CLNexp-IW" -> exists T, od_get "T1" ff = Some T /\ od_get "T2" ff = Some T).
Proof.
  intros N H. unfold implV in H. destruct (memb p _); [| discriminate H].
  assert (BSZ : forall n, (0 < n)%nat -> name <> "CLN" -> fst (bsz_ffV p 0 par n) = Ok ff -> exists mB mV A0 A12, look par (fst (massesV p name)) = Ok mB /\ look par (snd (massesV p name)) = Ok mV /\
    od_get "A0" ff = Some A0 /\ od_get "A12" ff = Some A12 /\ A0 * (mB ^ 2 - mV ^ 2) = 8 * mB * mV * A12 /\
    (name <> "CLNexp-IW" -> exists T, od_get "T1" ff = Some T /\ od_get "T2" ff = Some T)).
  { intros n n0 NC E. destruct (bsz_ffV p 0 par n) as [r par'] eqn:E'. cbn [fst] in E. subst r. apply bszV_relations in E' as (pd & mB & mV & A0 & A12 & T & Hp & HB & HV & H1 & H2 & H3 & H4 & H5); [| exact n0].
    exists mB, mV, A0, A12. apply bszV_proc in Hp. cbn [In] in Hp. refine (conj _ (conj _ (conj H1 (conj H2 (conj H5 (fun _ => ex_intro _ T (conj H3 H4))))))).
    - repeat destruct Hp as [Hp | Hp]; try contradiction; injection Hp as <- <-; try exact HB. unfold massesV. destruct (String.eqb_spec name "CLN"); [contradiction | exact HB].
    - repeat destruct Hp as [Hp | Hp]; try contradiction; injection Hp as <- <-; try exact HV. unfold massesV. destruct (String.eqb_spec name "CLN"); [contradiction | exact HV]. }
  destruct (String.eqb_spec name "BSZ2") as [e | _]; [apply (BSZ 2%nat); [lia | subst; discriminate | exact H] |].
  destruct (String.eqb_spec name "BSZ3") as [e | _]; [apply (BSZ 3%nat); [lia | subst; discriminate | exact H] |].
  destruct (String.eqb_spec name "SSE") as [e | _]; [contradiction |].
  destruct (String.eqb_spec name "CLN") as [-> | _].
  - destruct (String.eqb_spec p "B->D*") as [-> | _]; cbn [andb] in H.
    + apply clnV_0 in H as (mB & mV & A0 & A12 & T & _ & HB & HV & H1 & H2 & H3 & H4 & H5). exists mB, mV, A0, A12. exact (conj HB (conj HV (conj H1 (conj H2 (conj H5 (fun _ => ex_intro _ T (conj H3 H4))))))).
    + discriminate H.
  - cbn [andb] in H. destruct (String.eqb_spec name "CLNexp-IW") as [-> | _]; [| discriminate H]. destruct (String.eqb p "B->D*"); cbn [andb] in H; [| discriminate H].
    apply clnexp_inv in H as (-> & mB & mV & ff0 & HB & HV & H & A0 & A12 & E1 & E2 & E3). apply iwV_inv in H as (F & _ & _).
    exists mB, mV, A0, A12. refine (conj HB (conj HV (conj _ (conj _ (conj (E3 eq_refl) _))))); [| | intros X; now destruct X].
    + rewrite F; [exact E1 | notin].
    + rewrite F; [exact E2 | notin].
Qed.
Print Assumptions C152_zero_momentum.

(** ** C153: 'B->D* CLNexp-IW': tensor form factors at zero momentum transfer *)
(** with the power correction a_T23 = -1 the form factor T23 vanishes everywhere except at zero; there the correction is not applied *)
Theorem C153_T23_refuted (h : hq) (mb mc : R) (par : params) : look par "B->D* IW a_T23" = Ok (-1) ->
  (forall q2 ff, q2 <> 0 -> implV h mb mc "B->D*" "CLNexp-IW" par q2 = Ok ff -> od_get "T23" ff = Some 0) /\
  (forall ff, implV h mb mc "B->D*" "CLNexp-IW" par 0 = Ok ff -> exists mB mV A12, look par "m_B0" = Ok mB /\ look par "m_D*+" = Ok mV /\ od_get "A12" ff = Some A12 /\
     od_get "T23" ff = Some (4 * A12 * (mb - mc) * (mB ^ 2 + mV ^ 2) / ((mB - mV) ^ 2 * (mB + mV)))).
Proof.
  intros L. split.
  - intros q2 ff Q H. change (implV h mb mc "B->D*" "CLNexp-IW" par q2) with (clnexp_ff mb mc "B->D*" q2 par) in H. apply clnexp_inv in H as (_ & mB & mV & ff0 & _ & _ & H & _).
    apply iwV_inv in H as (_ & _ & mB' & mV' & a1 & a2 & a23 & fV & fA1 & fA12 & fA0 & _ & _ & _ & _ & La & _ & _ & _ & _ & _ & _ & _ & _ & _ & T). rewrite (T Q). same L La. f_equal. replace (1 + -1) with 0 by ring. ring.
  - intros ff H. change (implV h mb mc "B->D*" "CLNexp-IW" par 0) with (clnexp_ff mb mc "B->D*" 0 par) in H. apply clnexp_inv in H as (_ & mB & mV & ff0 & _ & _ & H & _).
    apply iwV_inv in H as (F & _ & mB' & mV' & a1 & a2 & a23 & fV & fA1 & fA12 & fA0 & LB & LV & _ & _ & La & _ & _ & L12 & _ & _ & _ & _ & _ & T & _). exists mB', mV', fA12. refine (conj LB (conj LV (conj _ (T eq_refl)))).
    rewrite F by notin. unfold look in L12. destruct (od_get "A12" ff0); [now injection L12 as -> | discriminate L12].
Qed.
Print Assumptions C153_T23_refuted.
Definition exV : params :=
  [("m_B0", 2); ("m_D*0", 1); ("m_D*+", 1); ("B->D* CLN h_A1(1)", 1); ("B->D* CLN R_1(1)", 0); ("B->D* CLN R_2(1)", - (11 / 400) + 6 / 1600); ("B->D* CLN rho2", 0);
   ("B->D* IW a_T1", -1); ("B->D* IW a_T2", 0); ("B->D* IW a_T23", -1)].
Lemma bOk {A B} (a : A) (f : A -> result B) : bind (Ok a) f = f a.
Proof. reflexivity. Qed.
Lemma exV_iw (A0 A1 A12 V0 : R) : exists ff, isgur_wiseV 4 1 "B->D*" 0 [("A1", A1); ("A0", A0); ("A12", A12); ("V", V0)] exV = Ok ff /\ od_get "A1" ff = Some A1 /\ od_get "A12" ff = Some A12 /\
  od_get "T1" ff = Some 0 /\ od_get "T2" ff = Some (3 * A1) /\ od_get "T23" ff = Some (20 * A12).
Proof.
  unfold isgur_wiseV. rewrite (eq_refl : lookd (fun p => if String.eqb p "B->D*" then Some ("B0", "D*+") else None) "B->D*" = (Ok ("B0", "D*+") : result (string * string))). rewrite bOk. cbn [fst snd append].
  rewrite (eq_refl : look exV "m_B0" = (Ok 2 : result R)). rewrite (eq_refl : look exV "m_D*+" = (Ok 1 : result R)). rewrite (eq_refl : look exV "B->D* IW a_T1" = (Ok (-1) : result R)). rewrite (eq_refl : look exV "B->D* IW a_T2" = (Ok 0 : result R)). rewrite (eq_refl : look exV "B->D* IW a_T23" = (Ok (-1) : result R)). rewrite ?bOk.
  rewrite (eq_refl : look [("A1", A1); ("A0", A0); ("A12", A12); ("V", V0)] "V" = (Ok V0 : result R)). rewrite (eq_refl : look [("A1", A1); ("A0", A0); ("A12", A12); ("V", V0)] "A1" = (Ok A1 : result R)). rewrite (eq_refl : look [("A1", A1); ("A0", A0); ("A12", A12); ("V", V0)] "A12" = (Ok A12 : result R)). rewrite (eq_refl : look [("A1", A1); ("A0", A0); ("A12", A12); ("V", V0)] "A0" = (Ok A0 : result R)). rewrite ?bOk.
  rewrite (pdiv_is (4 + 1)) by lra. rewrite (pdiv_is (4 - 1)) by lra. rewrite ?bOk. destruct (Req_EM_T 0 0) as [_ | X]; [| now destruct X]. rewrite pdiv_is by lra. rewrite ?bOk.
  eexists. refine (conj eq_refl (conj _ (conj _ (conj _ (conj _ _))))).
  - rewrite !od_get_set_ne by discriminate. reflexivity.
  - rewrite !od_get_set_ne by discriminate. reflexivity.
  - rewrite !od_get_set_ne by discriminate. rewrite od_get_set_eq. f_equal. replace (1 + -1) with 0 by ring. ring.
  - rewrite od_get_set_ne by discriminate. rewrite od_get_set_eq. f_equal. field.
  - rewrite od_get_set_eq. f_equal. field.
Qed.
Lemma exV_ok : exists ff A1 A12, clnexp_ff 4 1 "B->D*" 0 exV = Ok ff /\ od_get "A1" ff = Some A1 /\ od_get "A12" ff = Some A12 /\ 0 < A1 /\ 0 < A12 /\
  od_get "T1" ff = Some 0 /\ od_get "T2" ff = Some (3 * A1) /\ od_get "T23" ff = Some (20 * A12).
Proof.
  assert (S9 : sqrt (9 / 4) = 3 / 2) by (replace (9 / 4) with ((3 / 2) ^ 2) by field; apply sqrt_pow2; lra).
  assert (T1 : 14 / 10 < sqrt 2) by (apply Rsqr_incrst_0; [rewrite Rsqr_sqrt by lra; unfold Rsqr; lra | lra | apply sqrt_pos]).
  assert (T2 : sqrt 2 < 3 / 2) by (apply Rsqr_incrst_0; [rewrite Rsqr_sqrt by lra; unfold Rsqr; lra | apply sqrt_pos | lra]).
  unfold clnexp_ff. rewrite (eq_refl : lookd (fun p => if String.eqb p "B->D*" then Some ("B0", "D*0") else None) "B->D*" = (Ok ("B0", "D*0") : result (string * string))). rewrite bOk. cbn [fst snd append].
  rewrite (eq_refl : look exV "m_B0" = (Ok 2 : result R)). rewrite (eq_refl : look exV "m_D*0" = (Ok 1 : result R)). rewrite ?bOk. rewrite (pdiv_is (2 ^ 2 + 1 ^ 2 - 0)) by lra. rewrite ?bOk.
  replace ((2 ^ 2 + 1 ^ 2 - 0) / (2 * 2 * 1)) with (5 / 4) by field. rewrite psqrt_is by lra. replace (5 / 4 + 1) with (9 / 4) by field. rewrite S9. rewrite ?bOk. rewrite (pdiv_is (3 / 2 - sqrt 2)) by lra. rewrite ?bOk. rewrite psqrt_is by lra. rewrite ?bOk.
  replace (2 * 1) with 2 by ring. replace (2 + 1) with 3 by ring. rewrite (pdiv_is (2 * sqrt 2)) by lra. rewrite ?bOk.
  rewrite (eq_refl : look exV "B->D* CLN h_A1(1)" = (Ok 1 : result R)). rewrite (eq_refl : look exV "B->D* CLN R_1(1)" = (Ok 0 : result R)). rewrite (eq_refl : look exV "B->D* CLN R_2(1)" = (Ok (- (11 / 400) + 6 / 1600) : result R)). rewrite (eq_refl : look exV "B->D* CLN rho2" = (Ok 0 : result R)). rewrite ?bOk.
  replace (2 * 2 * 1) with 4 by ring. rewrite (pdiv_is (2 ^ 2 + 1 ^ 2)) by lra. rewrite ?bOk. rewrite (pdiv_is _ 2) by lra. rewrite ?bOk.
  replace ((2 ^ 2 + 1 ^ 2) / 4) with (5 / 4) by field.
  assert (RV : 2 * sqrt 2 / 3 <> 0) by lra. rewrite !(fun x => pdiv_is x (2 * sqrt 2 / 3) RV). rewrite ?bOk.
  set (zz := (3 / 2 - sqrt 2) / (3 / 2 + sqrt 2)). assert (Z : 0 < zz < 1 / 10). { unfold zz. assert (P : 0 < / (3 / 2 + sqrt 2)) by (apply Rinv_0_lt_compat; lra). split; [apply Rmult_lt_0_compat; lra |]. apply (Rmult_lt_reg_r (3 / 2 + sqrt 2)); [lra |]. unfold Rdiv at 1. rewrite Rmult_assoc, Rinv_l by lra. lra. }
  set (hA := 1 * (1 - 8 * 0 * zz + (53 * 0 - 15) * zz ^ 2 - (231 * 0 - 91) * zz ^ 3)). assert (HA : 0 < hA). { unfold hA. assert (0 <= zz ^ 3) by (apply pow_le; lra). assert (zz ^ 2 < 1 / 100) by nra. lra. } clearbody hA. clearbody zz.
  set (A1 := hA * (2 * sqrt 2 / 3) * (9 / 4) / 2). assert (PA1 : 0 < A1) by (unfold A1; assert (0 < hA * sqrt 2) by (apply Rmult_lt_0_compat; lra); lra).
  replace ((- (11 / 400) + 6 / 1600 + 11 / 100 * (5 / 4 - 1) - 6 / 100 * (5 / 4 - 1) ^ 2) / (2 * sqrt 2 / 3) * hA) with 0 by (field; lra).
  rewrite (pdiv_is (_ - 0 * _)) by lra. rewrite ?bOk. set (A12 := (A1 * 3 ^ 2 * (2 ^ 2 - 1 ^ 2 - 0) - 0 * _) / _). assert (PA12 : 0 < A12) by (unfold A12; lra).
  match goal with |- exists ff _ _, isgur_wiseV _ _ _ _ [_; (_, ?a0); _; (_, ?v0)] _ = _ /\ _ => destruct (exV_iw a0 A1 A12 v0) as (ff & E & E1 & E2 & E3 & E4 & E5) end.
  exists ff, A1, A12. exact (conj E (conj E1 (conj E2 (conj PA1 (conj PA12 (conj E3 (conj E4 E5))))))).
Qed.
(** T1(0) and T2(0) differ, and T23 jumps at zero *)
Theorem C153_T1_T2_refuted (h : hq) : exists mb mc par ff T1 T2 T23, 0 < mc < mb /\ implV h mb mc "B->D*" "CLNexp-IW" par 0 = Ok ff /\ od_get "T1" ff = Some T1 /\ od_get "T2" ff = Some T2 /\ T1 <> T2 /\
  od_get "T23" ff = Some T23 /\ T23 <> 0 /\ (forall q2 ff', q2 <> 0 -> implV h mb mc "B->D*" "CLNexp-IW" par q2 = Ok ff' -> od_get "T23" ff' = Some 0).
Proof.
  destruct exV_ok as (ff & A1 & A12 & E & _ & _ & P1 & P2 & H1 & H2 & H3). exists 4, 1, exV, ff, 0, (3 * A1), (20 * A12).
  refine (conj _ (conj E (conj H1 (conj H2 (conj _ (conj H3 (conj _ _))))))); [lra | lra | lra |]. exact (proj1 (C153_T23_refuted h 4 1 exV eq_refl)).
Qed.
Print Assumptions C153_T1_T2_refuted.

(** ** C154: two parametrisations write to the parameter dictionary they are given *)
Definition kA12 (p : string) : string := p ++ " BSZ a0_A12".
Definition kT2 (p : string) : string := p ++ " BSZ a0_T2".
(** what is written: the values required by the relations at zero momentum transfer; everything else stays, the result does not depend on
    the previous content of the two entries, and a second call gives the same *)
Theorem C154_bsz_writes (p : string) (q2 : R) (par : params) (n : nat) (ff : od string R) (par' : params) : bsz_ffV p q2 par n = (Ok ff, par') ->
  (exists pd mB mV a0 aT, bszV_process p = Some pd /\ look par ("m_" ++ fst pd) = Ok mB /\ look par ("m_" ++ snd pd) = Ok mV /\ look par (p ++ " BSZ a0_A0") = Ok a0 /\ look par (p ++ " BSZ a0_T1") = Ok aT /\
     (exists a12, look par' (kA12 p) = Ok a12 /\ a0 * (mB ^ 2 - mV ^ 2) = 8 * mB * mV * a12) /\ look par' (kT2 p) = Ok aT) /\
  (forall k, k <> kA12 p -> k <> kT2 p -> od_get k par' = od_get k par) /\
  (forall v w, fst (bsz_ffV p q2 (od_set (kA12 p) v (od_set (kT2 p) w par)) n) = Ok ff) /\
  fst (bsz_ffV p q2 par' n) = Ok ff.
Proof.
  intros H. pose proof (bszV_frame _ _ _ _ _ _ H) as F. refine (conj _ (conj _ (conj _ _))).
  - assert (H' := H). apply bszV_inv in H' as (pd & m0 & m1 & m2 & mB & mV & a0 & aT & Hp & _ & _ & _ & HB & HV & HA & HT & N1 & N2 & E & _). exists pd, mB, mV, a0, aT. refine (conj Hp (conj HB (conj HV (conj HA (conj HT (conj _ _)))))).
    + exists (a0 / (8 * mB * mV / (mB ^ 2 - mV ^ 2))). split; [subst par'; unfold kA12; rewrite look_set_ne by (intros X; apply app_cancel in X; discriminate X); apply look_set_eq |].
      assert (N3 : 8 * mB * mV <> 0) by (intros X; apply N2; rewrite X; unfold Rdiv; ring). assert (mB <> 0) by (intros ->; apply N3; ring). assert (mV <> 0) by (intros ->; apply N3; ring). field. auto.
    + subst par'. apply look_set_eq.
  - intros k K1 K2. apply F. cbn [In]. intros [X | [X | []]]; [apply K1 | apply K2]; symmetry; exact X.
  - intros v w. replace (Ok ff) with (fst (bsz_ffV p q2 par n)) by now rewrite H. symmetry. apply bszV_agree. intros k K. rewrite !od_get_set_ne; [reflexivity | |]; intros X; subst k; apply K; cbn; auto.
  - replace (Ok ff) with (fst (bsz_ffV p q2 par n)) by now rewrite H. symmetry. apply bszV_agree. intros k K. symmetry. now apply F.
Qed.
Print Assumptions C154_bsz_writes.
Theorem C154_sse_writes (q2 : R) (par : params) (n : nat) (ff : od string R) (par' : params) : sse_ffL "Lambdab->Lambda" q2 par n = (Ok ff, par') ->
  (exists aA aT, look par "Lambdab->Lambda SSE a0_fA0" = Ok aA /\ look par' "Lambdab->Lambda SSE a0_fAperp" = Ok aA /\ look par "Lambdab->Lambda SSE a0_fT50" = Ok aT /\ look par' "Lambdab->Lambda SSE a0_fT5perp" = Ok aT) /\
  (forall k, k <> "Lambdab->Lambda SSE a0_fAperp" -> k <> "Lambdab->Lambda SSE a0_fT5perp" -> od_get k par' = od_get k par) /\
  fst (sse_ffL "Lambdab->Lambda" q2 par' n) = Ok ff.
Proof.
  intros H. pose proof (sseL_frame _ _ _ _ _ H) as F. refine (conj _ (conj _ _)).
  - assert (H' := H). apply sseL_inv in H' as (mX & mP & aA & aT & _ & _ & HA & HT & E & _). exists aA, aT. subst par'. refine (conj HA (conj _ (conj HT _))).
    + rewrite look_set_ne by discriminate. apply look_set_eq.
    + apply look_set_eq.
  - intros k K1 K2. apply F. cbn [In keysL]. intros [X | [X | []]]; [apply K1 | apply K2]; symmetry; exact X.
  - replace (Ok ff) with (fst (sse_ffL "Lambdab->Lambda" q2 par n)) by now rewrite H. symmetry. apply sseL_agree. intros k K. symmetry. now apply F.
Qed.
Print Assumptions C154_sse_writes.
(** so an evaluation changes the caller's dictionary: the stored value is replaced whenever it is not the constrained one *)
Theorem C154_changed_refuted (p : string) (q2 : R) (par : params) (n : nat) (ff : od string R) (par' : params) (x aT : R) : bsz_ffV p q2 par n = (Ok ff, par') ->
  look par (p ++ " BSZ a0_T1") = Ok aT -> look par (kT2 p) = Ok x -> x <> aT -> par' <> par.
Proof.
  intros H HT HX N E. destruct (C154_bsz_writes p q2 par n ff par' H) as ((pd & mB & mV & a0 & aT' & _ & _ & _ & _ & HT' & _ & W) & _). same HT HT'. rewrite E in W. rewrite HX in W. injection W as W. contradiction.
Qed.
Print Assumptions C154_changed_refuted.
Definition exB : params :=
  ([("m_B0", 2); ("m_K*0", 1); ("B->K* BCL m0", 10); ("B->K* BCL m1-", 10); ("B->K* BCL m1+", 10)] ++
   concat (map (fun i => [("B->K* BSZ a0_" ++ i, if String.eqb i "T1" then 3 else 1); ("B->K* BSZ a1_" ++ i, 2)])%string ["A0"; "A1"; "A12"; "V"; "T1"; "T2"; "T23"]%string))%list.
Lemma z21 : z 2 1 0 T0none = Ok (zval 2 1 0 T0none).
Proof. assert (B : 0 < 2) by lra. assert (M : 0 < 1) by lra. apply z_is; try assumption; [unfold t_plus; lra | exact (t_lt 2 1 B M T0none I)]. Qed.
Example ex_writes : exists ff par', bsz_ffV "B->K*" 0 exB 2 = (Ok ff, par') /\ look exB ("B->K*" ++ " BSZ a0_T1") = Ok 3 /\ look exB (kT2 "B->K*") = Ok 1.
Proof.
  unfold bsz_ffV. rewrite (eq_refl : lookd bszV_process "B->K*" = (Ok ("B0", "K*0") : result (string * string))). cbn [bind fst snd append].
  rewrite (eq_refl : look exB "B->K* BCL m0" = (Ok 10 : result R)). rewrite (eq_refl : look exB "B->K* BCL m1-" = (Ok 10 : result R)). rewrite (eq_refl : look exB "B->K* BCL m1+" = (Ok 10 : result R)). rewrite (eq_refl : look exB "m_B0" = (Ok 2 : result R)). rewrite (eq_refl : look exB "m_K*0" = (Ok 1 : result R)). rewrite (eq_refl : look exB "B->K* BSZ a0_A0" = (Ok 1 : result R)). cbn [bind].
  rewrite (pdiv_is (8 * 2 * 1)) by lra. cbn [bind]. rewrite (pdiv_is 1) by lra. cbn [bind]. rewrite look_set_ne by discriminate. rewrite (eq_refl : look exB "B->K* BSZ a0_T1" = (Ok 3 : result R)).
  set (par' := od_set "B->K* BSZ a0_T2" 3 (od_set "B->K* BSZ a0_A12" _ exB)).
  assert (C : forall i, In i namesV -> exists a b, coeffs par' "B->K* BSZ" i (seq 0 2) = Ok [a; b]).
  { intros i Hi. unfold namesV in Hi. cbn [In] in Hi. repeat destruct Hi as [Hi | Hi]; try contradiction; subst i; eexists _, _; reflexivity. }
  assert (P : forall i, poleV i [10; 10; 10]%R 0 = Ok 1).
  { intros i. unfold poleV. assert (E10 : nth (mresV i) [10; 10; 10]%R 0 = 10) by (unfold mresV; destruct (String.eqb i "A0"); [reflexivity |]; destruct (String.eqb i "V" || String.eqb i "T1")%bool; reflexivity). rewrite E10. rewrite pdiv_is by lra. cbn [bind]. rewrite pdiv_is by lra. f_equal. field. }
  assert (Zs : bsz_zs 2 1 0 T0none = Ok [1; 0; 0]%R) by (unfold bsz_zs; rewrite z21; cbn [bind]; f_equal; repeat f_equal; ring).
  match goal with |- context [mapM ?f namesV] => assert (Q : exists ff, mapM f namesV = Ok ff) end.
  { apply mapM_total. intros i Hi. destruct (C i Hi) as (a & b & E). rewrite E. cbn [bind]. rewrite P. cbn [bind]. rewrite Zs. cbn [bind firstn]. eexists. reflexivity. }
  destruct Q as (ff & Q). exists ff, par'. rewrite Q. split; [reflexivity | split; reflexivity].
Qed.

(** ** C155: baryonic form factors at maximal momentum transfer *)
Theorem C155_endpoint (name : string) (par : params) (ff : od string R) (par' : params) (mLb mX : R) :
  look par "m_Lambdab" = Ok mLb -> look par "m_Lambda" = Ok mX -> implL "Lambdab->Lambda" name par ((mLb - mX) ^ 2) = (Ok ff, par') ->
  exists u v, od_get "fAperp" ff = Some u /\ od_get "fA0" ff = Some u /\ od_get "fT5perp" ff = Some v /\ od_get "fT50" ff = Some v.
Proof.
  intros L1 L2 H. unfold implL in H. change (String.eqb "Lambdab->Lambda" "Lambdab->Lambda") with true in H. cbv iota in H.
  destruct (String.eqb name "SSE2"); [| destruct (String.eqb name "SSE3")]; [| | discriminate H]; (apply (sseL_endpoint par 2 ff par' mLb mX) in H; [exact H | lia | exact L1 | exact L2]).
Qed.
Print Assumptions C155_endpoint.
Definition exL : params :=
  ([("m_Lambdab", 56 / 10); ("m_Lambda", 1); ("m_K+", 1); ("m_B+", 5)] ++
   concat (map (fun i => [("Lambdab->Lambda SSE a0_" ++ i, 1); ("Lambdab->Lambda SSE a1_" ++ i, 2)])%string namesL))%list.
Example ex_endpoint : exists ff par', implL "Lambdab->Lambda" "SSE3" exL ((56 / 10 - 1) ^ 2) = (Ok ff, par').
Proof.
  change (implL "Lambdab->Lambda" "SSE3" exL ((56 / 10 - 1) ^ 2)) with (sse_ffL "Lambdab->Lambda" ((56 / 10 - 1) ^ 2) exL 2). unfold sse_ffL.
  rewrite (eq_refl : lookd (fun p => if String.eqb p "Lambdab->Lambda" then Some ("Lambda", "K+") else None) "Lambdab->Lambda" = (Ok ("Lambda", "K+") : result (string * string))). cbn [bind fst snd append].
  rewrite (eq_refl : look exL "m_Lambda" = (Ok 1 : result R)). rewrite (eq_refl : look exL "m_K+" = (Ok 1 : result R)). rewrite (eq_refl : look exL "Lambdab->Lambda SSE a0_fA0" = (Ok 1 : result R)). cbn [bind].
  rewrite look_set_ne by discriminate. rewrite (eq_refl : look exL "Lambdab->Lambda SSE a0_fT50" = (Ok 1 : result R)).
  set (par' := od_set "Lambdab->Lambda SSE a0_fT5perp" 1 (od_set "Lambdab->Lambda SSE a0_fAperp" 1 exL)).
  assert (C : forall i, In i namesL -> exists a b, coeffs par' "Lambdab->Lambda SSE" i (seq 0 2) = Ok [a; b]).
  { intros i Hi. unfold namesL in Hi. cbn [In] in Hi. repeat destruct Hi as [Hi | Hi]; try contradiction; subst i; eexists _, _; reflexivity. }
  assert (Zz : z 5 1 ((56 / 10 - 1) ^ 2) (T0val ((56 / 10 - 1) ^ 2)) = Ok (zval 5 1 ((56 / 10 - 1) ^ 2) (T0val ((56 / 10 - 1) ^ 2)))) by (apply z_is; [lra | lra | unfold t_plus; lra | unfold t_zero, t_plus; lra]).
  match goal with |- context [mapM ?f namesL] => assert (Q : exists ff, mapM f namesL = Ok ff) end.
  { apply mapM_total. intros i Hi. destruct (C i Hi) as (a & b & E). rewrite E. cbn [bind].
    assert (M : 5 < mresL i) by (unfold mresL; destruct (_ || _)%bool; [lra |]; destruct (String.eqb i "fVt"); [lra |]; destruct (String.eqb i "fAt"); lra).
    rewrite pdiv_is by nra. cbn [bind]. rewrite pdiv_is. 2:{ assert (X : (56 / 10 - 1) ^ 2 / mresL i ^ 2 < 1). { apply (Rmult_lt_reg_r (mresL i ^ 2)); [nra |]. unfold Rdiv at 1. rewrite Rmult_assoc, Rinv_l by nra. nra. } lra. }
    cbn [bind]. rewrite (eq_refl : look par' "m_Lambdab" = (Ok (56 / 10) : result R)). rewrite (eq_refl : look par' "m_B+" = (Ok 5 : result R)). cbn [bind]. rewrite Zz. cbn [bind firstn]. eexists. reflexivity. }
  destruct Q as (ff & Q). exists ff, par'. rewrite Q. reflexivity.
Qed.

(** ** C156: 'Lambdab->Lambda SSE3' uses two coefficients per form factor, not three *)
Theorem C156_third_coefficient_ignored_refuted (par : params) (q2 : R) (i : string) (v : R) :
  In i ["fA0"; "fAperp"; "fAt"; "fT0"; "fT50"; "fT5perp"; "fTperp"; "fV0"; "fVperp"; "fVt"] ->
  fst (implL "Lambdab->Lambda" "SSE3" (od_set ("Lambdab->Lambda SSE a2_" ++ i) v par) q2) = fst (implL "Lambdab->Lambda" "SSE3" par q2) /\
  fst (implL "Lambdab->Lambda" "SSE3" par q2) = fst (implL "Lambdab->Lambda" "SSE2" par q2).
Proof.
  intros Hi. split; [| reflexivity]. change (implL "Lambdab->Lambda" "SSE3") with (fun par q2 => sse_ffL "Lambdab->Lambda" q2 par 2). cbv beta. unfold sse_ffL, lookd.
  change (String.eqb "Lambdab->Lambda" "Lambdab->Lambda") with true. cbv iota. cbn [bind fst snd append].
  set (k := String _ _). assert (K : forall s, In s ["m_Lambda"; "m_K+"; "m_Lambdab"; "m_B+"; "Lambdab->Lambda SSE a0_fA0"; "Lambdab->Lambda SSE a0_fT50"; "Lambdab->Lambda SSE a0_fAperp"; "Lambdab->Lambda SSE a0_fT5perp"] -> k <> s).
  { intros s Hs. cbn [In] in Hs. repeat destruct Hs as [Hs | Hs]; try contradiction; subst s; discriminate. }
  rewrite !(look_set_ne par k "m_Lambda"), !(look_set_ne par k "m_K+"), !(look_set_ne par k "Lambdab->Lambda SSE a0_fA0") by (apply K; cbn [In]; tauto).
  destruct (bind _ _) as [((mX, mP), aA) | e]; [| reflexivity]. rewrite !(look_set_ne _ "Lambdab->Lambda SSE a0_fAperp") by discriminate. rewrite (look_set_ne par k "Lambdab->Lambda SSE a0_fT50") by (apply K; cbn [In]; tauto).
  destruct (look par "Lambdab->Lambda SSE a0_fT50") as [aT | e]; [| reflexivity]. cbn [fst]. apply mapM_ext. intros j _.
  assert (G : forall s, k <> s -> look (od_set "Lambdab->Lambda SSE a0_fT5perp" aT (od_set "Lambdab->Lambda SSE a0_fAperp" aA (od_set k v par))) s = look (od_set "Lambdab->Lambda SSE a0_fT5perp" aT (od_set "Lambdab->Lambda SSE a0_fAperp" aA par)) s).
  { intros s Hs. destruct (string_dec "Lambdab->Lambda SSE a0_fT5perp" s) as [<- | n1]; [now rewrite !look_set_eq |]. rewrite !(look_set_ne _ _ _ _ n1). destruct (string_dec "Lambdab->Lambda SSE a0_fAperp" s) as [<- | n2]; [now rewrite !look_set_eq |]. rewrite !(look_set_ne _ _ _ _ n2). now apply look_set_ne. }
  assert (GC : coeffs (od_set "Lambdab->Lambda SSE a0_fT5perp" aT (od_set "Lambdab->Lambda SSE a0_fAperp" aA (od_set k v par))) "Lambdab->Lambda SSE" j (seq 0 2) = coeffs (od_set "Lambdab->Lambda SSE a0_fT5perp" aT (od_set "Lambdab->Lambda SSE a0_fAperp" aA par)) "Lambdab->Lambda SSE" j (seq 0 2)).
  { unfold coeffs. cbn [seq mapM append]. rewrite !G; [reflexivity | |]; unfold k; discriminate. }
  rewrite GC, !G by (apply K; cbn [In]; tauto). reflexivity.
Qed.
Print Assumptions C156_third_coefficient_ignored_refuted.

(** ** C157: implementations that raise KeyError for every argument *)
Theorem C157_unusable_refuted (h : hq) (mb mc : R) (par : params) (q2 : R) :
  (forall p, In p ["B->K"; "B->D"] -> In (p, "BCL4-LMVD") registeredP /\ implP h p "BCL4-LMVD" par q2 = Err KeyError) /\
  (forall p, In p ["B->rho"; "B->omega"; "B->D*"] -> In (p, "SSE") registeredV /\ implV h mb mc p "SSE" par q2 = Err KeyError).
Proof.
  split; intros p Hp; cbn [In] in Hp; repeat destruct Hp as [Hp | Hp]; try contradiction; subst p; (split; [unfold registeredP, registeredV; cbn; tauto | reflexivity]).
Qed.
Print Assumptions C157_unusable_refuted.

(** ** C158: zero recoil in the CLN parametrisation: the normalisation is fixed by heavy-quark symmetry, with corrections of second order only *)
Theorem C158_zero_recoil_Dstar (h : hq) (mb mc : R) (par : params) (ff : od string R) (mB mV : R) : 0 < mB -> 0 < mV ->
  look par "m_B0" = Ok mB -> look par "m_D*+" = Ok mV -> implV h mb mc "B->D*" "CLN" par ((mB - mV) ^ 2) = Ok ff ->
  exists A1 l2, od_get "A1" ff = Some A1 /\ look par "CLN l_2(1)" = Ok l2 /\
    A1 * (mB + mV) / (2 * sqrt (mB * mV)) = 1 + ash h * cfun h "CA1" 1 (zc h) + epsc h ^ 2 * l2.
Proof. intros B V LB LV H. exact (clnV_recoil h par 3 2 1 ff mB mV B V LB LV H). Qed.
Print Assumptions C158_zero_recoil_Dstar.
Theorem C158_zero_recoil_D (h : hq) (par : params) (ff : od string R) (mB mP : R) : 0 < mP < mB ->
  look par "m_B0" = Ok mB -> look par "m_D+" = Ok mP -> implP h "B->D" "CLN" par ((mB - mP) ^ 2) = Ok ff ->
  exists f0 l1, od_get "f0" ff = Some f0 /\ look par "CLN l_1(1)" = Ok l1 /\
    f0 * (mB + mP) / (2 * sqrt (mB * mP)) = 1 + ash h * (cfun h "CV1" 1 (zc h) + cfun h "CV2" 1 (zc h) + cfun h "CV3" 1 (zc h)) + epsc h ^ 2 * l1.
Proof. intros P LB LV H. exact (clnP_recoil h par 3 2 1 ff mB mP P LB LV H). Qed.
Print Assumptions C158_zero_recoil_D.
Definition exC : params :=
  ([("m_B0", 5); ("m_D+", 2); ("m_D*+", 2); ("CLN rho2_xi", 1); ("CLN c_xi", 1); ("CLN xi3", 1)] ++ map (fun n => (n, 1)) ["chi_2(1)"; "chi_2p(1)"; "chi_2pp(1)"; "chi_3p(1)"; "chi_3pp(1)"; "eta(1)"; "etap(1)"; "etapp(1)"]%string ++
   concat (map (fun j => [("CLN l_" ++ dig j ++ "(1)", 1); ("CLN lp_" ++ dig j ++ "(1)", 1)])%string [1; 2; 3; 4; 5; 6]%nat))%list.
Example ex_recoil (h : hq) : exists ff, implP h "B->D" "CLN" exC ((5 - 2) ^ 2) = Ok ff.
Proof.
  change (implP h "B->D" "CLN" exC ((5 - 2) ^ 2)) with (cln_ffP h "B->D" ((5 - 2) ^ 2) exC 3 2 1). unfold cln_ffP.
  rewrite (eq_refl : lookd (fun p => if String.eqb p "B->D" then Some ("B0", "D+") else None) "B->D" = (Ok ("B0", "D+") : result (string * string))). cbn [bind fst snd append].
  rewrite (eq_refl : look exC "m_B0" = (Ok 5 : result R)). rewrite (eq_refl : look exC "m_D+" = (Ok 2 : result R)). cbn [bind]. rewrite w1_at1 by lra. cbn [bind]. rewrite z_at1 by lra. cbn [bind].
  rewrite (eq_refl : look exC "CLN rho2_xi" = (Ok 1 : result R)). rewrite (eq_refl : look exC "CLN c_xi" = (Ok 1 : result R)). rewrite (eq_refl : look exC "CLN xi3" = (Ok 1 : result R)). cbn [bind].
  assert (XI : exists x, xi_fun 0 1 1 1 3 = Ok x) by (eexists; reflexivity). destruct XI as (x & XI). rewrite XI. cbn [bind].
  assert (LZ : exists L, Lz exC (Rmax 1 1) 0 2 = Ok L).
  { unfold Lz. rewrite (eq_refl : w_minus_1_pow_n 0 1 2 = (Ok (rsum_ (firstn (2 + 1) (zipmul [0; 8; 16; 24] [1; 0; 0 ^ 2; 0 ^ 3])%R)) : result R)). rewrite (eq_refl : w_minus_1_pow_n 0 2 2 = (Ok (rsum_ (firstn (2 + 1) (zipmul [0; 0; 64; 256] [1; 0; 0 ^ 2; 0 ^ 3])%R)) : result R)). cbn [bind].
    rewrite (eq_refl : look exC "chi_2(1)" = (Ok 1 : result R)). rewrite (eq_refl : look exC "chi_2p(1)" = (Ok 1 : result R)). rewrite (eq_refl : look exC "chi_2pp(1)" = (Ok 1 : result R)). rewrite (eq_refl : look exC "chi_3p(1)" = (Ok 1 : result R)). rewrite (eq_refl : look exC "chi_3pp(1)" = (Ok 1 : result R)). rewrite (eq_refl : look exC "eta(1)" = (Ok 1 : result R)). rewrite (eq_refl : look exC "etap(1)" = (Ok 1 : result R)). rewrite (eq_refl : look exC "etapp(1)" = (Ok 1 : result R)). cbn [bind].
    rewrite Rmax_left by lra. rewrite pdiv_is by lra. cbn [bind]. eexists. reflexivity. }
  destruct LZ as (L & LZ). rewrite LZ. cbn [bind].
  assert (EL : exists l, ell exC 0 1 = Ok l) by (eexists; reflexivity). destruct EL as (l & EL). rewrite EL. cbn [bind].
  unfold h_to_f. rewrite (pdiv_is 2 5) by lra. cbn [bind]. rewrite psqrt_is by lra. cbn [bind]. assert (S : 0 < sqrt (2 / 5)) by (apply sqrt_lt_R0; lra).
  rewrite pdiv_is by lra. cbn [bind]. rewrite pdiv_is by lra. cbn [bind]. rewrite pdiv_is by lra. cbn [bind]. rewrite pdiv_is by lra. cbn [bind]. eexists. reflexivity.
Qed.
