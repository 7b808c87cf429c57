(** * Theorems about B_s -> V l l: C135, C136 *)
From Coq Require Import Reals Lra.
From Coquelicot Require Import Coquelicot.
From Verif Require Import Base Basics_Model Basics_Spec Basics_Proofs Angular_Model Angular_Spec Angular_Proofs Angular_Proofs2 Angular_Proofs3 Angular_Proofs4 Angular_Proofs5 Angular_Proofs6 Angular_Proofs7 Angular_Proofs8 Angular_Proofs9 Decays_Model Decays_Spec Decays_Proofs Decays_Proofs2 Decays_Proofs3 Decays_Proofs5 DecaysNC_Model DecaysNC_Spec DecaysNC_Proofs DecaysNC_Proofs3 DecaysNC_Proofs4 DecaysNC_Props DecaysBs_Model DecaysBs_Spec DecaysBs_Proofs DecaysBs_Proofs2.
Local Open Scope string_scope.
Local Open Scope R_scope.

(** ** linear functionals *)
Definition only (k0 : jkey) (s : R) (k : jkey) : R :=
  match k0, k with J1s, J1s | J1c, J1c | J2s, J2s | J2c, J2c | J3, J3 | J4, J4 | J5, J5 | J6s, J6s | J6c, J6c | J7, J7 | J8, J8 | J9, J9 => s | _, _ => 0 end.
Lemma lin_only k0 s J : lin (only k0 s) J = s * J k0.
Proof. destruct k0; unfold lin; cbn [only]; ring. Qed.
Definition c_rate (k : jkey) : R := match k with J1s => 3 / 2 | J1c => 3 / 4 | J2s => - 1 / 2 | J2c => - 1 / 4 | _ => 0 end.
Lemma lin_rate J : lin c_rate J = rate_all (density J).
Proof. rewrite all_is. unfold lin, vdGdq2. cbn [c_rate]. field. Qed.
Lemma lin_scale c s J : lin (fun k => s * c k) J = s * lin c J.
Proof. unfold lin. ring. Qed.
Lemma lin_ext c J J' : (forall k, J k = J' k) -> lin c J = lin c J'.
Proof. intros E. unfold lin. rewrite !E. reflexivity. Qed.
Lemma lin_two c u v (A B : jkey -> R) : lin c (fun k => u * A k + v * B k) = u * lin c A + v * lin c B.
Proof. unfold lin. ring. Qed.

Section B.
  Variable b : bsvll.
  Hypothesis W : bs_ok b.
  Let d := b_d b.
  Let y := width_difference b.
  Lemma sf_ave : stands_for b dGdq2_ave_Bs (fun k => / 2 * c_rate k).
  Proof using W.
    intros q2 L. rewrite lin_scale. unfold dGdq2_ave_Bs, dGdq2.
    transitivity ((3 / 4 * (2 * S_theory_num_Bs (width_difference b) (Jv (b_d b) q2) (Jv' (b_d b) q2) (Jh b q2) J1s + S_theory_num_Bs (width_difference b) (Jv (b_d b) q2) (Jv' (b_d b) q2) (Jh b q2) J1c)
      - 1 / 4 * (2 * S_theory_num_Bs (width_difference b) (Jv (b_d b) q2) (Jv' (b_d b) q2) (Jh b q2) J2s + S_theory_num_Bs (width_difference b) (Jv (b_d b) q2) (Jv' (b_d b) q2) (Jh b q2) J2c)) / 2).
    - unfold S_theory_num_Bs. set (u := 1 / (1 - _)). set (v := _ / (1 - _)). field.
    - rewrite !(S_is b W) by (try reflexivity; exact L). unfold lin. cbn [c_rate]. field.
  Qed.
  Lemma sf_den : stands_for b SA_den_Bs c_rate.
  Proof using W. intros q2 L. unfold SA_den_Bs. rewrite (sf_ave q2 L), lin_scale. field. Qed.
  Lemma sf_pub name f n : entry name _observables_bs = Some f -> published_bs name = Some n -> exists c, stands_for b f c /\ forall T, n T = lin c T.
  Proof using W.
    unfold _observables_bs, published_bs. cbn [entry].
    assert (E : forall s, (s =? name)%string = if string_dec name s then true else false) by (intros s; destruct (string_dec name s) as [e | e]; [subst; apply String.eqb_refl | apply String.eqb_neq; congruence]).
    rewrite !E. destruct (string_dec name "FL"); [| destruct (string_dec name "S3"); [| destruct (string_dec name "S4"); [| destruct (string_dec name "S7"); [| discriminate]]]]; intros [= <-] [= <-].
    - exists (only J2c (-1)). split; [intros q2 L | intros T]; rewrite lin_only; [unfold FL_num_Bs; rewrite (S_is b W) by (try reflexivity; exact L) |]; ring.
    - exists (only J3 1). split; [intros q2 L | intros T]; rewrite lin_only; [cbn [S_experiment_num_Bs signflip]; unfold S_experiment_num_Bs; cbn [signflip]; rewrite (S_is b W) by (try reflexivity; exact L) |]; ring.
    - exists (only J4 (-1)). split; [intros q2 L | intros T]; rewrite lin_only; [unfold S_experiment_num_Bs; cbn [signflip]; rewrite (S_is b W) by (try reflexivity; exact L) |]; ring.
    - exists (only J7 (-1)). split; [intros q2 L | intros T]; rewrite lin_only; [unfold S_experiment_num_Bs; cbn [signflip]; rewrite (S_is b W) by (try reflexivity; exact L) |]; ring.
  Qed.
  Lemma obs_clip_bs f c q2 : stands_for b f c -> bsvll_obs b f q2 = clip (thr d) (top d) (fun q => lin c (TT b q)) q2.
  Proof using.
    intros S. unfold clip. destruct (Rlt_dec q2 (thr d)); [apply obs_outside; fold d; lra |]. destruct (Rlt_dec (top d) q2); [apply obs_outside; fold d; lra |]. rewrite obs_in by (fold d; lra). apply S. fold d. lra.
  Qed.
  Lemma TT_int k : ex_RInt (fun q => TT b q k) (thr d) (top d).
  Proof using W.
    destruct (Wd b W) as (_ & _ & _ & _ & I). destruct (I k) as (I1 & I2). fold d in I1, I2. destruct W as (_ & _ & _ & _ & I3). specialize (I3 k). fold d in I3. pose proof (range_d d (Wd b W)) as r. fold d in r.
    set (y' := width_difference b). apply (ex_RInt_ext (fun q => (1 / (1 - y' ^ 2) + y' / (1 - y' ^ 2)) * Jv d q k + (1 / (1 - y' ^ 2) * cp_sign k + y' / (1 - y' ^ 2) * cp_sign k) * Jv' d q k + (- (y' / (1 - y' ^ 2))) * Jx b q k)).
    - rewrite Rmin_left, Rmax_right by lra. intros q Q. unfold TT. fold d y'. rewrite (Js_is b W q k) by (fold d; lra). fold d. toR. ring.
    - apply (int_plus (fun q => (1 / (1 - y' ^ 2) + y' / (1 - y' ^ 2)) * Jv d q k + (1 / (1 - y' ^ 2) * cp_sign k + y' / (1 - y' ^ 2) * cp_sign k) * Jv' d q k)).
      + apply (int_plus (fun q => (1 / (1 - y' ^ 2) + y' / (1 - y' ^ 2)) * Jv d q k)); [exact (int_scal (fun q => Jv d q k) _ _ _ I1) | exact (int_scal (fun q => Jv' d q k) _ _ _ I2)].
      + exact (int_scal (fun q => Jx b q k) _ _ _ I3).
  Qed.
  Lemma lin_TT_int c lo hi : thr d <= lo -> lo <= hi -> hi <= top d -> ex_RInt (fun q => lin c (TT b q)) lo hi.
  Proof using W. intros L1 L2 L3. apply lin_int. intros k. apply (int_part _ (thr d) (top d)); try assumption. apply TT_int. Qed.
  Lemma obs_any f c a e : stands_for b f c -> ex_RInt (bsvll_obs b f) a e.
  Proof using W.
    intros S. pose proof (range_d d (Wd b W)) as r. fold d in r.
    assert (Q : forall u v, u <= v -> ex_RInt (bsvll_obs b f) u v).
    { intros u v L. apply (ex_RInt_ext (clip (thr d) (top d) (fun q => lin c (TT b q)))); [intros q _; symmetry; now apply obs_clip_bs |]. apply clip_integrable; [exact L |]. intros _. apply lin_TT_int; lra. }
    destruct (Rle_dec a e) as [L | L]; [now apply Q |]. apply ex_RInt_swap, Q. lra.
  Qed.
  Lemma obs_over f c a e : stands_for b f c -> a <= e -> RInt (bsvll_obs b f) a e = RInt (fun q => lin c (TT b q)) (from (thr d) a e) (upto (thr d) (top d) a e).
  Proof using W.
    intros S L. pose proof (range_d d (Wd b W)) as r. fold d in r. rewrite (ext_R (bsvll_obs b f) (clip (thr d) (top d) (fun q => lin c (TT b q)))) by (intros; now apply obs_clip_bs).
    apply clip_int; [exact L |]. apply clip_exists; [exact L |]. intros _. apply lin_TT_int; lra.
  Qed.
  Lemma bin_is f c a e : stands_for b f c -> a <= e -> bsvll_obs_int b f a e = RInt (bsvll_obs b f) a e.
  Proof using W. intros S L. unfold bsvll_obs_int. apply pole_is; [lra | now apply (obs_any f c)]. Qed.
  Lemma bin_TT f c a e : stands_for b f c -> Rmax a (thr d) < Rmin e (top d) -> bsvll_obs_int b f a e = lin c (over (TT b) (Rmax a (thr d)) (Rmin e (top d))).
  Proof using W.
    intros S L. assert (m1 := Rmax_l a (thr d)). assert (m2 := Rmin_l e (top d)). assert (m3 := Rmax_r a (thr d)). assert (m4 := Rmin_r e (top d)). assert (L' : a <= e) by lra.
    rewrite (bin_is f c a e S L'), (obs_over f c a e S L'). unfold upto, from. rewrite (Rmin_right e (Rmax a (thr d))) by lra. rewrite (Rmax_right (Rmax a (thr d))) by lra.
    apply lin_RInt. intros k. apply (int_part _ (thr d) (top d)); try lra. apply TT_int.
  Qed.
  Lemma bin_empty f c a e : stands_for b f c -> a <= e -> Rmin e (top d) <= Rmax a (thr d) -> bsvll_obs_int b f a e = 0.
  Proof using W.
    intros S L O. rewrite (bin_is f c a e S L), (obs_over f c a e S L). destruct (overlap (thr d) (top d) a e L) as [Q | (O1 & O2 & O3 & O4)]; [rewrite Q; exact (RInt_point _ _) |].
    destruct (from_upto (thr d) (top d) a e L) as ((u1 & u2) & u3). assert (Q : from (thr d) a e = upto (thr d) (top d) a e) by lra. rewrite Q. exact (RInt_point _ _).
  Qed.
  (** functionals that are not negative for any decay amplitude are not negative for all decays *)
  Lemma TT_pos c q2 : thr d <= q2 <= top d -> (forall H, no_tensors H -> 0 <= lin c (Jb_ b H q2)) -> 0 <= lin c (TT b q2).
  Proof using W.
    intros L P. assert (Ph := phys_d d (Wd b W) q2 (proj1 L)). fold d in Ph. destruct (no_tens b W q2 L) as (NT & NT'). fold d in NT, NT'. set (h := l_h d q2) in *. set (s := same_state (l_hbar d q2)).
    assert (Ns : no_tensors s) by (intros l; destruct (NT' (reversed l)) as (t1 & t2); unfold s, same_state; cbn [aT aTt]; rewrite t1, t2; split; ring).
    assert (Na : forall z : C, no_tensors (amps_add h z s)) by (intros z l; destruct (NT l) as (t1 & t2); destruct (Ns l) as (t3 & t4); unfold amps_add; cbn [aT aTt]; rewrite t1, t2, t3, t4; split; ring).
    assert (U : Cmod (b_qp b) ^ 2 = 1) by (destruct W as (_ & _ & U & _); rewrite U; ring).
    assert (X : lin c (Jb_ b (amps_add h (- b_qp b)%C s) q2) = 2 * lin c (Jb_ b h q2) + 2 * lin c (Jb_ b s q2) - lin c (Jb_ b (amps_add h (b_qp b) s) q2)).
    { rewrite (lin_ext c (Jb_ b (amps_add h (- b_qp b)%C s) q2) (fun k => 1 * (fun k => 2 * Jb_ b h q2 k + 2 * Jb_ b s q2 k) k + -1 * Jb_ b (amps_add h (b_qp b) s) q2 k)).
      - rewrite lin_two, lin_two. ring.
      - intros k. cbv beta. pose proof (J_parallelogram h s (b_qp b) q2 (l_mB d) (l_mV d) (l_ml d) (l_ml d) k Ph U) as Q. cbv zeta in Q. unfold Jb_. fold d. lra. }
    pose proof (P _ (Na (- b_qp b)%C)) as p1. pose proof (P _ (Na (b_qp b))) as p2. rewrite X in p1. pose proof (P _ NT) as p3. pose proof (P _ Ns) as p4.
    assert (E : lin c (TT b q2) = 1 / (1 - y ^ 2) * (lin c (Jb_ b h q2) + lin c (Jb_ b s q2)) - y / (1 - y ^ 2) * (lin c (Jb_ b (amps_add h (b_qp b) s) q2) - lin c (Jb_ b h q2) - lin c (Jb_ b s q2))).
    { unfold TT, lin, Jv, Js, Jx, Jb_. fold d. fold h. fold s. fold y. ring. }
    rewrite E. set (A := lin c (Jb_ b h q2) + lin c (Jb_ b s q2)) in *. set (B := lin c (Jb_ b (amps_add h (b_qp b) s) q2) - lin c (Jb_ b h q2) - lin c (Jb_ b s q2)).
    assert (y1 : -1 < y < 1) by exact (Y b W). assert (D : 0 < 1 - y ^ 2) by (replace (1 - y ^ 2) with ((1 - y) * (1 + y)) by ring; apply Rmult_lt_0_compat; lra).
    replace (1 / (1 - y ^ 2) * A - y / (1 - y ^ 2) * B) with (((1 - y) * (A + B) / 2 + (1 + y) * (A - B) / 2) / (1 - y ^ 2)) by (field; lra).
    assert (AB : 0 <= A + B /\ 0 <= A - B) by (unfold A, B; lra). apply Rmult_le_pos; [| left; now apply Rinv_0_lt_compat].
    assert (0 <= (1 - y) * (A + B)) by (apply Rmult_le_pos; lra). assert (0 <= (1 + y) * (A - B)) by (apply Rmult_le_pos; lra). lra.
  Qed.
  Lemma pos_rate q2 : thr d <= q2 <= top d -> 0 <= lin c_rate (TT b q2).
  Proof using W.
    intros L. apply (TT_pos c_rate q2 L). intros H _. rewrite lin_rate, all_is. assert (Ph := phys_d d (Wd b W) q2 (proj1 L)). fold d in Ph. assert (HB : 0 < l_mB d) by apply (Wd b W). exact (rate_pos H q2 (l_mB d) (l_mV d) (l_ml d) (l_ml d) Ph HB).
  Qed.
  Lemma pos_2c q2 : thr d <= q2 <= top d -> 0 <= lin (only J2c (-1)) (TT b q2).
  Proof using W.
    intros L. apply (TT_pos _ q2 L). intros H N. rewrite lin_only. assert (Ph := phys_d d (Wd b W) q2 (proj1 L)). fold d in Ph. assert (HB : 0 < l_mB d) by apply (Wd b W).
    pose proof (J2c_neg H q2 (l_mB d) (l_mV d) (l_ml d) (l_ml d) Ph HB N) as p. unfold Jb_. fold d. lra.
  Qed.
  Definition c_rest (k : jkey) : R := c_rate k - only J2c (-1) k.
  Lemma lin_rest J : lin c_rest J = lin c_rate J - lin (only J2c (-1)) J.
  Proof using. unfold lin, c_rest. ring. Qed.
  Lemma pos_rest q2 : thr d <= q2 <= top d -> 0 <= lin c_rest (TT b q2).
  Proof using W.
    intros L. apply (TT_pos _ q2 L). intros H N. rewrite lin_rest, lin_only, lin_rate, all_is. assert (Ph := phys_d d (Wd b W) q2 (proj1 L)). fold d in Ph. assert (HB : 0 < l_mB d) by apply (Wd b W).
    pose proof (FL_upper H q2 (l_mB d) (l_mV d) (l_ml d) (l_ml d) Ph HB) as p. unfold Jb_. fold d. change (vdGdq2 ?J) with (dGdq2 J). lra.
  Qed.
End B.

(** ** C135: time-integrated distributions *)
(** the time integral exists for every mass difference, and does not depend on it *)
Theorem C135_exists (b : bsvll) (q2 : R) : bs_ok b -> thr (b_d b) <= q2 <= top (b_d b) ->
  exists T, forall x, untagged b x q2 T /\ forall T', untagged b x q2 T' -> forall k, T' k = T k.
Proof. intros W L. exists (TT b q2). intros x. split; [now apply untagged_TT | intros T'; now apply untagged_unique]. Qed.
(** the spectrum: lifetime times half the rate of equal numbers of mesons and antimesons *)
Theorem C135_spectrum (b : bsvll) (x q2 : R) (T : jkey -> R) : bs_ok b -> untagged b x q2 T ->
  (thr (b_d b) <= q2 <= top (b_d b) -> bsvll_dbrdq2 b q2 = l_tau (b_d b) * (rate_all (density T) / 2)) /\
  (~ (thr (b_d b) <= q2 <= top (b_d b)) -> bsvll_dbrdq2 b q2 = 0) /\ 0 <= bsvll_dbrdq2 b q2.
Proof.
  intros W U.
  assert (A : thr (b_d b) <= q2 <= top (b_d b) -> bsvll_dbrdq2 b q2 = l_tau (b_d b) * (rate_all (density T) / 2)).
  { intros L. unfold bsvll_dbrdq2. rewrite (obs_in b _ q2 L), (sf_ave b W q2 L), lin_scale, <- lin_rate, (lin_ext c_rate T (TT b q2)) by (intros k; now apply (untagged_unique b W x)). field. }
  assert (B : ~ (thr (b_d b) <= q2 <= top (b_d b)) -> bsvll_dbrdq2 b q2 = 0) by (intros L; unfold bsvll_dbrdq2; rewrite obs_outside by exact L; ring).
  refine (conj A (conj B _)). destruct (Rle_dec (thr (b_d b)) q2) as [l1 | l1]; [destruct (Rle_dec q2 (top (b_d b))) as [l2 | l2] |]; [| rewrite B by lra; lra | rewrite B by lra; lra].
  unfold bsvll_dbrdq2. rewrite (obs_in b _ q2 (conj l1 l2)), (sf_ave b W q2 (conj l1 l2)), lin_scale. pose proof (pos_rate b W q2 (conj l1 l2)). assert (0 <= l_tau (b_d b)) by apply (Wd b W). apply Rmult_le_pos; lra.
Qed.
Theorem C135_names (b : bsvll) (name : string) (q2 a e : R) :
  (bsvll_diff b name q2 <> None <-> published_bs name <> None) /\ (bsvll_bin b name a e <> None <-> published_bs name <> None).
Proof.
  unfold bsvll_diff, bsvll_bin, _observables_bs, published_bs. cbn [entry].
  assert (E : forall s, (s =? name)%string = if string_dec name s then true else false) by (intros s; destruct (string_dec name s) as [i | i]; [subst; apply String.eqb_refl | apply String.eqb_neq; congruence]).
  rewrite !E. destruct (string_dec name "FL"); [| destruct (string_dec name "S3"); [| destruct (string_dec name "S4"); [| destruct (string_dec name "S7")]]]; cbn [option_map]; split; split; intros; congruence.
Qed.
Lemma entry_pub name n : published_bs name = Some n -> exists f, entry name _observables_bs = Some f.
Proof.
  unfold _observables_bs, published_bs. cbn [entry].
  assert (E : forall s, (s =? name)%string = if string_dec name s then true else false) by (intros s; destruct (string_dec name s) as [i | i]; [subst; apply String.eqb_refl | apply String.eqb_neq; congruence]).
  rewrite !E. destruct (string_dec name "FL"); [| destruct (string_dec name "S3"); [| destruct (string_dec name "S4"); [| destruct (string_dec name "S7"); [| discriminate]]]]; intros _; eexists; reflexivity.
Qed.
(** ratios at a point and in a bin *)
Theorem C135_differential (b : bsvll) (x q2 : R) (T : jkey -> R) (name : string) n : bs_ok b -> published_bs name = Some n ->
  (thr (b_d b) <= q2 <= top (b_d b) -> untagged b x q2 T -> rate_all (density T) <> 0 -> bsvll_diff b name q2 = Some (n T / rate_all (density T))) /\
  (~ (thr (b_d b) <= q2 <= top (b_d b)) -> bsvll_diff b name q2 = Some 0).
Proof.
  intros W P. destruct (entry_pub name n P) as (f & F). destruct (sf_pub b W name f n F P) as (c & S & N). unfold bsvll_diff. rewrite F. cbn [option_map]. unfold bsvll_obs_ratio. rewrite ratio0_div. split.
  - intros L U R0. rewrite !(obs_in b _ q2 L), (S q2 L), (sf_den b W q2 L), N, <- lin_rate. f_equal.
    assert (E : forall k, T k = TT b q2 k) by (intros k; now apply (untagged_unique b W x)). rewrite (lin_ext c T _ E), (lin_ext c_rate T _ E). reflexivity.
  - intros L. rewrite !(obs_outside b _ q2 L). f_equal. unfold Rdiv. ring.
Qed.
Theorem C135_binned (b : bsvll) (x a e : R) (T : R -> jkey -> R) (name : string) n : bs_ok b -> published_bs name = Some n -> a <= e ->
  (forall q2, thr (b_d b) <= q2 <= top (b_d b) -> untagged b x q2 (T q2)) ->
  let I := over T (Rmax a (thr (b_d b))) (Rmin e (top (b_d b))) in
  (Rmax a (thr (b_d b)) < Rmin e (top (b_d b)) -> rate_all (density I) <> 0 -> bsvll_bin b name a e = Some (n I / rate_all (density I))) /\
  (Rmin e (top (b_d b)) <= Rmax a (thr (b_d b)) -> bsvll_bin b name a e = Some 0).
Proof.
  intros W P L U I. destruct (entry_pub name n P) as (f & F). destruct (sf_pub b W name f n F P) as (c & S & N). unfold bsvll_bin. rewrite F. cbn [option_map]. unfold bsvll_obs_int_ratio. rewrite ratio0_div. split.
  - intros Lt R0. rewrite (bin_TT b W f c a e S Lt), (bin_TT b W _ _ a e (sf_den b W) Lt), N, <- lin_rate. f_equal.
    assert (E : forall k, I k = over (TT b) (Rmax a (thr (b_d b))) (Rmin e (top (b_d b))) k).
    { intros k. unfold I, over. assert (m3 := Rmax_r a (thr (b_d b))). assert (m4 := Rmin_r e (top (b_d b))). apply RI_ext; [lra |]. intros q Q. apply (untagged_unique b W x); [lra | apply U; lra]. }
    rewrite (lin_ext c I _ E), (lin_ext c_rate I _ E). reflexivity.
  - intros O. rewrite (bin_empty b W f c a e S L O). f_equal. unfold Rdiv. ring.
Qed.
(** bins of the spectrum *)
Theorem C135_bins (b : bsvll) (a e g : R) : bs_ok b -> a <= e -> e <= g ->
  ex_RInt (bsvll_dbrdq2 b) a e /\ (e - a) * bsvll_dbrdq2_int b a e = RInt (bsvll_dbrdq2 b) a e /\
  (e - a) * bsvll_dbrdq2_int b a e + (g - e) * bsvll_dbrdq2_int b e g = (g - a) * bsvll_dbrdq2_int b a g.
Proof.
  intros W L1 L2.
  assert (I : forall u v, ex_RInt (bsvll_dbrdq2 b) u v) by (intros u v; exact (int_scal (bsvll_obs b dGdq2_ave_Bs) u v (l_tau (b_d b)) (obs_any b W _ _ u v (sf_ave b W)))).
  assert (E : forall u v, u <= v -> (v - u) * bsvll_dbrdq2_int b u v = RInt (bsvll_dbrdq2 b) u v).
  { intros u v L. unfold bsvll_dbrdq2_int. rewrite pole_is by (try apply I; lra). destruct (Req_EM_T u v) as [-> | n]; [rewrite RInt_point; toR; unfold zero; cbn; ring | toR; field; lra]. }
  refine (conj (I a e) (conj (E a e L1) _)).
  rewrite !E by lra. symmetry. apply RI_chasles; apply I.
Qed.
Theorem C135_total (b : bsvll) (x a e : R) (T : R -> jkey -> R) (delta : R) : bs_ok b -> a <= thr (b_d b) -> top (b_d b) <= e ->
  (forall q2, thr (b_d b) <= q2 <= top (b_d b) -> untagged b x q2 (T q2)) ->
  (e - a) * bsvll_dbrdq2_int b a e = l_tau (b_d b) * RInt (fun q2 => rate_all (density (T q2)) / 2) (thr (b_d b)) (top (b_d b)) /\
  bsvll_dbrdq2_19 delta b = (1 + delta) * RInt (bsvll_dbrdq2 b) (1 / 10) 19.
Proof.
  intros W La Le U. assert (r := range_d (b_d b) (Wd b W)). assert (Lae : a <= e) by lra. split.
  - destruct (C135_bins b a e e W Lae (Rle_refl e)) as (_ & E & _). rewrite E. clear E.
    assert (Q : RInt (bsvll_dbrdq2 b) a e = l_tau (b_d b) * RInt (fun q2 => rate_all (density (T q2)) / 2) (thr (b_d b)) (top (b_d b))).
    { assert (I : ex_RInt (bsvll_obs b dGdq2_ave_Bs) a e) by (apply (obs_any b W _ _ _ _ (sf_ave b W))). transitivity (l_tau (b_d b) * RInt (bsvll_obs b dGdq2_ave_Bs) a e); [exact (RI_scal (bsvll_obs b dGdq2_ave_Bs) a e (l_tau (b_d b)) I) |]. f_equal.
      rewrite (obs_over b W _ _ a e (sf_ave b W) Lae). unfold upto, from. rewrite (Rmax_right a) by lra. rewrite (Rmin_right e (thr _)) by lra. rewrite (Rmin_right e) by lra. rewrite Rmax_right by lra.
      apply RI_ext; [lra |]. intros q Q. rewrite lin_scale, <- lin_rate, (lin_ext c_rate (T q) (TT b q)) by (intros k; apply (untagged_unique b W x); [lra | apply U; lra]). field. }
    exact Q.
  - unfold bsvll_dbrdq2_19. assert (L : 1 / 10 <= 19) by lra. destruct (C135_bins b (1 / 10) 19 19 W L (Rle_refl 19)) as (_ & E & _). rewrite <- E. ring.
Qed.

(** ** C136: bounds, limits, ratios *)
Theorem C136_FL (b : bsvll) (q2 a e f f' : R) : bs_ok b -> a <= e -> bsvll_diff b "FL" q2 = Some f -> bsvll_bin b "FL" a e = Some f' -> 0 <= f <= 1 /\ 0 <= f' <= 1.
Proof.
  intros W L E1 E2. set (n := fun T : jkey -> R => - T J2c). assert (P : published_bs "FL" = Some n) by reflexivity. destruct (entry_pub _ _ P) as (g & G). destruct (sf_pub b W _ g n G P) as (c & S & N).
  unfold bsvll_diff in E1. unfold bsvll_bin in E2. rewrite G in E1, E2. cbn [option_map] in E1, E2. injection E1 as <-. injection E2 as <-. unfold bsvll_obs_ratio, bsvll_obs_int_ratio. rewrite !ratio0_div.
  assert (C : forall T, lin c T = lin (only J2c (-1)) T) by (intros T; rewrite <- N, lin_only; unfold n; ring).
  split.
  - destruct (Rle_dec (thr (b_d b)) q2) as [l1 | l1]; [destruct (Rle_dec q2 (top (b_d b))) as [l2 | l2] |].
    + assert (Q : thr (b_d b) <= q2 <= top (b_d b)) by lra. rewrite !(obs_in b _ q2 Q), (S q2 Q), (sf_den b W q2 Q), C. apply div01. pose proof (pos_2c b W q2 Q). pose proof (pos_rest b W q2 Q) as p. rewrite lin_rest in p. lra.
    + rewrite !obs_outside by lra. unfold Rdiv. rewrite Rmult_0_l. lra.
    + rewrite !obs_outside by lra. unfold Rdiv. rewrite Rmult_0_l. lra.
  - destruct (cases (b_d b) a e) as [O | O]; [| rewrite (bin_empty b W g c a e S L O); unfold Rdiv; rewrite Rmult_0_l; lra].
    rewrite (bin_TT b W g c a e S O), (bin_TT b W _ _ a e (sf_den b W) O), C. apply div01. assert (m3 := Rmax_r a (thr (b_d b))). assert (m4 := Rmin_r e (top (b_d b))).
    set (lo := Rmax a (thr (b_d b))) in *. set (hi := Rmin e (top (b_d b))) in *. assert (lh : lo <= hi) by lra.
    assert (I : forall k, ex_RInt (fun q => TT b q k) lo hi) by (intros k; apply (int_part _ (thr (b_d b)) (top (b_d b))); try lra; apply (TT_int b W)).
    assert (p1 := lin_pos (TT b) lo hi I (only J2c (-1)) lh). assert (p2 := lin_pos (TT b) lo hi I c_rest lh). rewrite lin_rest in p2.
    assert (q1 : 0 <= lin (only J2c (-1)) (over (TT b) lo hi)) by (apply p1; intros; apply (pos_2c b W); lra). assert (q2' : 0 <= lin c_rate (over (TT b) lo hi) - lin (only J2c (-1)) (over (TT b) lo hi)) by (apply p2; intros; apply (pos_rest b W); lra). lra.
Qed.
(** without a difference of widths the published quantities are the CP averages *)
Section Zero.
  Variable b : bsvll.
  Hypotheses (W : bs_ok b) (Z : b_dGoG b = 0).
  Let d := b_d b.
  Definition reduces (f : R -> angcoeffs -> angcoeffs -> angcoeffs -> R) (g : angcoeffs -> angcoeffs -> R) : Prop := forall J J' Jh, f 0 J J' Jh = g J J'.
  Lemma red_obs f g q2 : reduces f g -> bsvll_obs b f q2 = BVll_obs d g q2.
  Proof using Z. intros E. unfold bsvll_obs, BVll_obs. fold d. rewrite Z. replace (0 / 2) with 0 by field. destruct (negb (allowed d q2)); [reflexivity |]. rewrite E. reflexivity. Qed.
  Lemma red_S k : reduces (fun y J J' Jh => S_theory_num_Bs y J J' Jh k) (fun J J' => S_theory_num J J' k).
  Proof using. intros J J' Jh. unfold S_theory_num_Bs, S_theory_num. field. Qed.
  Lemma red_ave : reduces dGdq2_ave_Bs dGdq2_ave.
  Proof using. intros J J' Jh. unfold dGdq2_ave_Bs, dGdq2_ave. field. Qed.
  Lemma red_den : reduces SA_den_Bs SA_den.
  Proof using. intros J J' Jh. unfold SA_den_Bs, SA_den. rewrite red_ave. reflexivity. Qed.
  Lemma red_FL : reduces FL_num_Bs FL_num.
  Proof using. intros J J' Jh. unfold FL_num_Bs, FL_num. rewrite (red_S J2c). reflexivity. Qed.
  Lemma red_exp k : reduces (fun y J J' Jh => S_experiment_num_Bs y J J' Jh k) (fun J J' => S_experiment_num J J' k).
  Proof using. intros J J' Jh. unfold S_experiment_num_Bs, S_experiment_num. pose proof (red_S k J J' Jh) as E. cbv beta in E. rewrite !E. reflexivity. Qed.
  Lemma red_ratio f g q2 : reduces f g -> bsvll_obs_ratio b f SA_den_Bs q2 = BVll_ratio d g SA_den q2.
  Proof using Z.
    intros E. unfold bsvll_obs_ratio, BVll_ratio. rewrite ratio0_div, (red_obs _ _ q2 E), (red_obs _ _ q2 red_den). unfold BVll_obs. destruct (negb (allowed d q2)); [unfold Rdiv; ring | rewrite ratio0_div; reflexivity].
  Qed.
  Lemma red_bin f g c a e : reduces f g -> stands_for b f c -> linear g -> a <= e -> bsvll_obs_int b f a e = if empty_bin d a e then 0 else binned d (jfunc d g) a e.
  Proof using W Z.
    intros E S F L. rewrite (bin_is b W f c a e S L), (ext_R _ (BVll_obs d g)) by (intros; now apply red_obs). exact (obs_RInt d (Wd b W) g a e F L).
  Qed.
  Lemma lin_k k s : linear (fun J J' => s * S_theory_num J J' k).
  Proof using. exists (only k s), (only k s). intros J J'. rewrite !lin_only. unfold S_theory_num. ring. Qed.
  Lemma red_int_ratio f g c a e : reduces f g -> stands_for b f c -> linear g -> a <= e -> bsvll_obs_int_ratio b f SA_den_Bs a e = BVll_int_ratio d g SA_den a e.
  Proof using W Z.
    intros E S F L. unfold bsvll_obs_int_ratio, BVll_int_ratio. rewrite ratio0_div, (red_bin f g c a e E S F L).
    assert (Ls : linear SA_den) by (apply (linear_ext total); [intros; rewrite total_is; unfold SA_den, dGdq2_ave; field | apply linear_total]).
    rewrite (red_bin SA_den_Bs SA_den c_rate a e red_den (sf_den b W) Ls L). destruct (empty_bin d a e); [unfold Rdiv; ring | rewrite ratio0_div; reflexivity].
  Qed.
End Zero.
Theorem C136_no_width_difference (b : bsvll) (name : string) (q2 a e : R) : bs_ok b -> b_dGoG b = 0 -> a < e -> published_bs name <> None ->
  bsvll_dbrdq2 b q2 = BVll_dBRdq2 (b_d b) q2 /\ bsvll_dbrdq2_int b a e = BVll_dBRdq2_int (b_d b) a e /\
  bsvll_diff b name q2 = bvll_diff (b_d b) name q2 /\ bsvll_bin b name a e = bvll_bin (b_d b) name a e.
Proof.
  intros W Z L P. assert (L' : a <= e) by lra.
  assert (A : forall q, bsvll_dbrdq2 b q = BVll_dBRdq2 (b_d b) q) by (intros q; unfold bsvll_dbrdq2, BVll_dBRdq2; rewrite (red_obs b Z _ _ q red_ave); unfold BVll_obs; destruct (negb _); [ring | reflexivity]).
  refine (conj (A q2) (conj _ _)).
  - destruct (C135_bins b a e e W L' (Rle_refl e)) as (_ & E & _). destruct (C131_bins (b_d b) a e e (Wd b W) L' (Rle_refl e)) as (_ & E' & _).
    apply (Rmult_eq_reg_l (e - a)); [| lra]. rewrite E, E'. apply ext_R. exact A.
  - assert (Q : forall f g n m, entry n _observables_bs = Some f -> entry n _observables = Some g -> reduces f g -> linear g -> published_bs n = Some m -> bsvll_diff b n q2 = bvll_diff (b_d b) n q2 /\ bsvll_bin b n a e = bvll_bin (b_d b) n a e).
    { intros f g n m F G R Lg Pm. destruct (sf_pub b W n f m F Pm) as (c & S & _). unfold bsvll_diff, bvll_diff, bsvll_bin, bvll_bin. rewrite F, G. cbn [option_map]. split; f_equal; [now apply red_ratio | now apply (red_int_ratio b W Z f g c)]. }
    unfold published_bs in P. destruct (string_dec name "FL") as [-> |]; [| destruct (string_dec name "S3") as [-> |]; [| destruct (string_dec name "S4") as [-> |]; [| destruct (string_dec name "S7") as [-> |]; [| congruence]]]].
    + apply (Q FL_num_Bs FL_num "FL" (fun T => - T J2c)); try reflexivity; [apply red_FL |]. apply (linear_ext (fun J J' => -1 * S_theory_num J J' J2c)); [intros; unfold FL_num; ring | apply lin_k].
    + apply (Q (fun y J J' Jh => S_experiment_num_Bs y J J' Jh J3) (fun J J' => S_experiment_num J J' J3) "S3" (fun T => T J3)); try reflexivity; [apply red_exp |]. apply (linear_ext (fun J J' => 1 * S_theory_num J J' J3)); [intros; unfold S_experiment_num; cbn [signflip]; ring | apply lin_k].
    + apply (Q (fun y J J' Jh => S_experiment_num_Bs y J J' Jh J4) (fun J J' => S_experiment_num J J' J4) "S4" (fun T => - T J4)); try reflexivity; [apply red_exp |]. apply (linear_ext (fun J J' => -1 * S_theory_num J J' J4)); [intros; unfold S_experiment_num; cbn [signflip]; ring | apply lin_k].
    + apply (Q (fun y J J' Jh => S_experiment_num_Bs y J J' Jh J7) (fun J J' => S_experiment_num J J' J7) "S7" (fun T => - T J7)); try reflexivity; [apply red_exp |]. apply (linear_ext (fun J J' => -1 * S_theory_num J J' J7)); [intros; unfold S_experiment_num; cbn [signflip]; ring | apply lin_k].
Qed.
(** ratios of lepton flavours *)
Theorem C136_R (b1 b2 : bsvll) (a e : R) : bs_ok b1 -> bs_ok b2 -> a < e -> l_tau (b_d b1) = l_tau (b_d b2) -> 0 < l_tau (b_d b1) -> bsvll_dbrdq2_int b2 a e <> 0 ->
  bsvll_obs_int_ratio_leptonflavour dGdq2_ave_Bs b1 b2 a e = bsvll_dbrdq2_int b1 a e / bsvll_dbrdq2_int b2 a e /\ 0 <= bsvll_obs_int_ratio_leptonflavour dGdq2_ave_Bs b1 b2 a e.
Proof.
  intros W1 W2 L Et T0 N. assert (L' : a <= e) by lra.
  assert (E : forall b, bs_ok b -> bsvll_dbrdq2_int b a e = l_tau (b_d b) / (e - a) * bsvll_obs_int b dGdq2_ave_Bs a e).
  { intros b W. destruct (C135_bins b a e e W L' (Rle_refl e)) as (_ & E & _). rewrite (bin_is b W _ _ a e (sf_ave b W) L'). assert (I := obs_any b W _ _ a e (sf_ave b W)).
    apply (Rmult_eq_reg_l (e - a)); [| lra]. rewrite E. transitivity (l_tau (b_d b) * RInt (bsvll_obs b dGdq2_ave_Bs) a e); [exact (RI_scal (bsvll_obs b dGdq2_ave_Bs) a e (l_tau (b_d b)) I) |]. toR. field. lra. }
  assert (Q : forall b, bs_ok b -> 0 <= bsvll_obs_int b dGdq2_ave_Bs a e).
  { intros b W. rewrite (bin_is b W _ _ a e (sf_ave b W) L'). apply RI_pos; [exact L' | apply (obs_any b W _ _ a e (sf_ave b W)) |]. intros q _.
    destruct (Rle_dec (thr (b_d b)) q) as [l1 | l1]; [destruct (Rle_dec q (top (b_d b))) as [l2 | l2] |]; [| rewrite obs_outside by lra; lra | rewrite obs_outside by lra; lra].
    rewrite (obs_in b _ q (conj l1 l2)), (sf_ave b W q (conj l1 l2)), lin_scale. pose proof (pos_rate b W q (conj l1 l2)). lra. }
  unfold bsvll_obs_int_ratio_leptonflavour. split; [| apply ratio0_pos; now apply Q]. rewrite ratio0_div. rewrite !E in * by assumption. rewrite <- Et in *. set (y2 := bsvll_obs_int b2 _ _ _) in *.
  assert (y0 : y2 <> 0) by (intros z; apply N; rewrite z; ring). field. repeat split; try assumption; lra.
Qed.
(** the hypotheses are met by a decay with interference in mixing and a rate that is not zero *)
Lemma const_scale x : const_amps x = amps_scale x (const_amps (RtoC 1)).
Proof. unfold amps_scale, const_amps. cbn [aV aA aP aS aT aTt]. replace (x * RtoC 1)%C with x by ring. replace (x * RtoC 0)%C with (RtoC 0) by ring. reflexivity. Qed.
Lemma const_same x : same_state (const_amps x) = const_amps (- x)%C.
Proof. unfold same_state, const_amps. cbn [aV aA aP aS aT aTt]. replace (- RtoC 0)%C with (RtoC 0) by ring. reflexivity. Qed.
Lemma const_add x z x' : amps_add (const_amps x) z (const_amps x') = const_amps (x + z * x')%C.
Proof. unfold amps_add, const_amps. cbn [aV aA aP aS aT aTt]. replace (RtoC 0 + z * RtoC 0)%C with (RtoC 0) by ring. reflexivity. Qed.
Definition ex_bs : bsvll := BsVll (ex_vll (RtoC 2)) (1 / 5) (RtoC (-1)).
Example C135_met : bs_ok ex_bs /\ thr (b_d ex_bs) <= 4 <= top (b_d ex_bs) /\ exists T, (forall x, untagged ex_bs x 4 T) /\ 0 < rate_all (density T) /\ 0 < - T J2c.
Proof.
  destruct (ex_thr (RtoC 2)) as (t1 & t2). assert (Q : thr (b_d ex_bs) <= 4 <= top (b_d ex_bs)) by (cbn [ex_bs b_d]; lra).
  assert (W : bs_ok ex_bs).
  { unfold bs_ok. unfold width_difference. cbn [ex_bs b_d b_dGoG b_qp]. refine (conj (ex_ok _) (conj _ (conj _ (conj _ _)))); [intros q2 _; split; intros l; split; reflexivity | rewrite Cmod_R, Rabs_left by lra; ring | lra |].
    intros k. cbn [ex_vll l_h l_hbar]. rewrite const_same, const_add. rewrite t1, t2. unfold Jb_. cbn [b_d ex_vll l_mB l_mV l_ml].
    apply (J_int (fun _ => const_amps (RtoC 1 + RtoC (-1) * - RtoC 2)%C) 10 1 (1 / 2) (1 / 2) 1 81 k); [lra | lra | lra | lra | lra |]. intros x X. apply const_cont. }
  refine (conj W (conj Q _)). exists (TT ex_bs 4). split; [intros x; now apply untagged_TT |].
  set (J := angularcoeffs_general_v (const_amps (RtoC 1)) 4 10 1 (1 / 2) (1 / 2)).
  assert (Ph : physical 4 (1 / 2) (1 / 2)) by (unfold physical; lra).
  assert (E : forall k, TT ex_bs 4 k = 460 / 99 * J k + 0 * J k).
  { intros k. unfold TT, Js, Jx, Jb_, Jv, width_difference. cbn [ex_bs b_d b_dGoG b_qp ex_vll l_h l_hbar l_mB l_mV l_ml]. rewrite const_same, const_add. fold J. rewrite (const_scale (- RtoC 2)%C), (const_scale (RtoC 1 + RtoC (-1) * - RtoC 2)%C), !J_scale by exact Ph. fold J.
    replace (RtoC 1 + RtoC (-1) * - RtoC 2)%C with (RtoC 3) by (rewrite <- RtoC_opp, <- RtoC_mult, <- RtoC_plus; f_equal; ring). rewrite <- RtoC_opp, !Cmod_R, Rabs_left, Rabs_right by lra. field. }
  assert (n1 : RtoC 1 <> RtoC 0) by (intros z; apply RtoC_inj in z; lra). destruct (ex_signs (RtoC 1) 4 ltac:(lra) ltac:(lra) n1) as (_ & s). fold J in s. pose proof (ex_rate (RtoC 1) 4 ltac:(lra) ltac:(lra) n1) as r. fold J in r.
  split; [| rewrite E; lra]. rewrite <- lin_rate, (lin_ext _ _ _ E), lin_two, lin_rate, all_is. change (vdGdq2 J) with (dGdq2 J). lra.
Qed.
Print Assumptions C135_exists.
Print Assumptions C135_spectrum.
Print Assumptions C135_names.
Print Assumptions C135_differential.
Print Assumptions C135_binned.
Print Assumptions C135_bins.
Print Assumptions C135_total.
Print Assumptions C136_FL.
Print Assumptions C136_no_width_difference.
Print Assumptions C136_R.
