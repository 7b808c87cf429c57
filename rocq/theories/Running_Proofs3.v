From Coq Require Import Reals Lra.
From Verif Require Import Base BaseLemmas Running_Model Running_Spec Running_Proofs.
Local Open Scope R_scope.

Lemma get_nf_spec t x n : ordered t -> (get_nf t x = Ok n <-> active t n x).
Proof.
  intros Ho. assert (H : exists m, get_nf t x = Ok m /\ active t m x).
  { destruct Ho as (H1 & H2 & H3). unfold get_nf, active. destruct (Rge_dec x (t_mt t)); [exists 6%nat; split; [easy|]; right; right; right; split; [easy|lra]|].
    destruct (Rle_dec (t_mb t) x). { destruct (Rlt_dec x (t_mt t)); [|lra]. exists 5%nat; split; [easy|]; right; right; left; split; [easy|lra]. }
    destruct (Rle_dec (t_mc t) x). { destruct (Rlt_dec x (t_mb t)); [|lra]. exists 4%nat; split; [easy|]; right; left; split; [easy|lra]. }
    exists 3%nat; split; [easy|]; left; split; [easy|lra]. }
  destruct H as (m & Hm & Ha). split.
  - intros E. congruence.
  - intros Hn. rewrite Hm. f_equal. exact (active_fun t x m n Ho Ha Hn).
Qed.

Lemma lnq a b : 0 < a -> 0 < b -> ln (b / a) = ln b - ln a.
Proof. intros. unfold Rdiv. rewrite ln_mult, ln_Rinv; [lra|assumption|assumption|now apply Rinv_0_lt_compat]. Qed.

Lemma run_alpha_e_spec a x y nu nd ne q : 0 < a -> 0 < x -> 0 < y -> q = nu * (4 / 3) + nd * (1 / 3) + ne ->
  0 < / a + - (2 / (3 * PI)) * q * (ln y - ln x) ->
  run_alpha_e a x y nu nd ne = Ok (/ (/ a + - (2 / (3 * PI)) * q * (ln y - ln x))).
Proof.
  intros Ha Hx Hy Hq Hpos. unfold run_alpha_e. pose proof PI_RGT_0 as Hpi.
  destruct (Req_EM_T y x) as [->|Hne].
  - f_equal. rewrite Rminus_diag_eq by reflexivity. rewrite Rmult_0_r, Rplus_0_r. now rewrite Rinv_inv.
  - rewrite lnq by assumption.
    assert (E : 1 + a * (- 4 / 3 * (4 * nu / 3 + nd / 3 + ne)) * (ln y - ln x) / (2 * PI) = a * (/ a + - (2 / (3 * PI)) * q * (ln y - ln x))).
    { rewrite Hq. field. lra. }
    rewrite E. destruct (Req_EM_T _ 0) as [E0|_].
    + exfalso. assert (0 < a * (/ a + - (2 / (3 * PI)) * q * (ln y - ln x))) by now apply Rmult_lt_0_compat. lra.
    + f_equal. set (Z := / a + _) in *. field. lra.
Qed.

Lemma ln_mono a b : 0 < a -> a <= b -> ln a <= ln b.
Proof. intros H [H1|H1]; [left; now apply ln_increasing|subst; now right]. Qed.

Section A.
  Variables (t : thresholds) (ae : R).
  Hypothesis Ho : ordered t.
  Hypothesis Hmz : t_mb t <= 91.1876 <= t_mt t.
  Hypothesis Hae : 0 < ae.
  Let k := 2 / (3 * PI).
  Lemma kpos : 0 < k.
  Proof. unfold k. pose proof PI_RGT_0. apply Rmult_lt_0_compat; [lra|]. apply Rinv_0_lt_compat. lra. Qed.
  Lemma ichange n a b : inverse_change n a b = - (charges n) * (k * ln b - k * ln a).
  Proof. unfold inverse_change, k. ring. Qed.
  Lemma kln a b : 0 < a -> a <= b -> k * ln a <= k * ln b.
  Proof. intros. apply Rmult_le_compat_l; [left; apply kpos|now apply ln_mono]. Qed.
  Lemma kln_lt a b : 0 < a -> a < b -> k * ln a < k * ln b.
  Proof. intros. apply Rmult_lt_compat_l; [apply kpos|now apply ln_increasing]. Qed.

  Lemma inverse_decreasing n m x y : 0 < x -> x < y -> active t n x -> active t m y -> inverse_alpha t ae m y < inverse_alpha t ae n x.
  Proof.
    intros Hx Hxy An Am. destruct Ho as (H1 & H2 & H3).
    pose proof (kln_lt x y Hx Hxy) as K.
    assert (Kc : k * ln (t_mc t) <= k * ln (t_mb t)) by (apply kln; lra).
    assert (Kt : k * ln (t_mb t) <= k * ln (t_mt t)) by (apply kln; lra).
    assert (Kz : k * ln (t_mb t) <= k * ln 91.1876) by (apply kln; lra).
    assert (Kz' : k * ln 91.1876 <= k * ln (t_mt t)) by (apply kln; lra).
    assert (C1 : x <= t_mc t -> k * ln x <= k * ln (t_mc t)) by (intros; apply kln; lra).
    assert (C2 : t_mc t <= x -> k * ln (t_mc t) <= k * ln x) by (intros; apply kln; lra).
    assert (C3 : x <= t_mb t -> k * ln x <= k * ln (t_mb t)) by (intros; apply kln; lra).
    assert (C4 : t_mb t <= x -> k * ln (t_mb t) <= k * ln x) by (intros; apply kln; lra).
    assert (C5 : x <= t_mt t -> k * ln x <= k * ln (t_mt t)) by (intros; apply kln; lra).
    assert (C6 : t_mt t <= x -> k * ln (t_mt t) <= k * ln x) by (intros; apply kln; lra).
    assert (D1 : y <= t_mc t -> k * ln y <= k * ln (t_mc t)) by (intros; apply kln; lra).
    assert (D2 : t_mc t <= y -> k * ln (t_mc t) <= k * ln y) by (intros; apply kln; lra).
    assert (D3 : y <= t_mb t -> k * ln y <= k * ln (t_mb t)) by (intros; apply kln; lra).
    assert (D4 : t_mb t <= y -> k * ln (t_mb t) <= k * ln y) by (intros; apply kln; lra).
    assert (D5 : y <= t_mt t -> k * ln y <= k * ln (t_mt t)) by (intros; apply kln; lra).
    assert (D6 : t_mt t <= y -> k * ln (t_mt t) <= k * ln y) by (intros; apply kln; lra).
    unfold inverse_alpha.
    destruct An as [(-> & A)|[(-> & A)|[(-> & A)|(-> & A)]]], Am as [(-> & B)|[(-> & B)|[(-> & B)|(-> & B)]]]; try lra;
      rewrite !ichange; cbn [charges]; lra.
  Qed.

  Lemma active_pos x : active t 6 (t_mt t) /\ active t 5 (t_mb t) /\ active t 4 (t_mc t) /\ (x < t_mc t -> active t 3 x).
  Proof. destruct Ho as (H1 & H2 & H3). unfold active. repeat split; intros; try (right; right; right; split; [easy|lra]); try (right; right; left; split; [easy|lra]); try (right; left; split; [easy|lra]); left; split; [easy|lra]. Qed.

  Lemma get_alpha_e_spec n x : 0 < x -> active t n x -> 0 < inverse_alpha t ae n x ->
    get_alpha_e t ae x None = Ok (/ inverse_alpha t ae n x) /\ get_alpha_e t ae x (Some n) = Ok (/ inverse_alpha t ae n x).
  Proof.
    intros Hx An Hpos. unfold get_alpha_e.
    assert (G0 : choose_nf t x None = Ok n) by (unfold choose_nf; now apply get_nf_spec). rewrite G0. cbn [bind].
    assert (G : choose_nf t x (Some n) = Ok n).
    { destruct An as [(-> & ?)|[(-> & ?)|[(-> & ?)|(-> & ?)]]]; reflexivity. }
    rewrite G. cbn [bind]. clear G G0.
    pose proof Ho as (H1 & H2 & H3).
    assert (Kc : k * ln (t_mc t) <= k * ln (t_mb t)) by (apply kln; lra).
    assert (Kz : k * ln (t_mb t) <= k * ln 91.1876) by (apply kln; lra).
    assert (Kz' : k * ln 91.1876 <= k * ln (t_mt t)) by (apply kln; lra).
    assert (Ki : 0 < / ae) by now apply Rinv_0_lt_compat.
    match goal with |- ?g = _ /\ ?g' = _ => assert (GG : g = Ok (/ inverse_alpha t ae n x)); [|split; exact GG] end.
    unfold inverse_alpha in *. unfold MZ.
    destruct An as [(-> & A)|[(-> & A)|[(-> & A)|(-> & A)]]].
    - assert (P1 : 0 < / ae + - (2 / (3 * PI)) * charges 5 * (ln (t_mb t) - ln 91.1876)).
      { change (2 / (3 * PI)) with k. cbn [charges]. lra. }
      rewrite (run_alpha_e_spec ae 91.1876 (t_mb t) 2 3 3 (charges 5)); [|assumption|lra|lra|cbn; lra|exact P1]. cbn [bind].
      set (a1 := / ae + - _ * _ * _) in *.
      assert (P2 : 0 < / / a1 + - (2 / (3 * PI)) * charges 4 * (ln (t_mc t) - ln (t_mb t))).
      { rewrite Rinv_inv. unfold a1. change (2 / (3 * PI)) with k. cbn [charges]. lra. }
      rewrite (run_alpha_e_spec (/ a1) (t_mb t) (t_mc t) 2 2 3 (charges 4)); [|now apply Rinv_0_lt_compat|lra|lra|cbn; lra|exact P2]. cbn [bind].
      set (a2 := / / a1 + - _ * _ * _) in *.
      assert (E : / / a2 + - (2 / (3 * PI)) * charges 3 * (ln x - ln (t_mc t)) =
        / ae + (inverse_change 5 91.1876 (t_mb t) + inverse_change 4 (t_mb t) (t_mc t) + inverse_change 3 (t_mc t) x)).
      { rewrite Rinv_inv. unfold a2. rewrite Rinv_inv. unfold a1, inverse_change. ring. }
      rewrite (run_alpha_e_spec (/ a2) (t_mc t) x 1 2 2 (charges 3)); [|now apply Rinv_0_lt_compat|lra|lra|cbn; lra|rewrite E; exact Hpos].
      now rewrite E.
    - assert (P1 : 0 < / ae + - (2 / (3 * PI)) * charges 5 * (ln (t_mb t) - ln 91.1876)).
      { change (2 / (3 * PI)) with k. cbn [charges]. lra. }
      rewrite (run_alpha_e_spec ae 91.1876 (t_mb t) 2 3 3 (charges 5)); [|assumption|lra|lra|cbn; lra|exact P1]. cbn [bind].
      set (a1 := / ae + - _ * _ * _) in *.
      assert (E : / / a1 + - (2 / (3 * PI)) * charges 4 * (ln x - ln (t_mb t)) =
        / ae + (inverse_change 5 91.1876 (t_mb t) + inverse_change 4 (t_mb t) x)).
      { rewrite Rinv_inv. unfold a1, inverse_change. ring. }
      rewrite (run_alpha_e_spec (/ a1) (t_mb t) x 2 2 3 (charges 4)); [|now apply Rinv_0_lt_compat|lra|lra|cbn; lra|rewrite E; exact Hpos].
      now rewrite E.
    - rewrite (run_alpha_e_spec ae 91.1876 x 2 3 3 (charges 5)); [reflexivity|assumption|lra|lra|cbn; lra|exact Hpos].
    - assert (Kx : k * ln (t_mt t) <= k * ln x) by (apply kln; lra).
      assert (P1 : 0 < / ae + - (2 / (3 * PI)) * charges 5 * (ln (t_mt t) - ln 91.1876)).
      { revert Hpos. rewrite !ichange. change (2 / (3 * PI)) with k. cbn [charges]. lra. }
      rewrite (run_alpha_e_spec ae 91.1876 (t_mt t) 2 3 3 (charges 5)); [|assumption|lra|lra|cbn; lra|exact P1]. cbn [bind].
      set (a1 := / ae + - _ * _ * _) in *.
      assert (E : / / a1 + - (2 / (3 * PI)) * charges 6 * (ln x - ln (t_mt t)) =
        / ae + (inverse_change 5 91.1876 (t_mt t) + inverse_change 6 (t_mt t) x)).
      { rewrite Rinv_inv. unfold a1, inverse_change. ring. }
      rewrite (run_alpha_e_spec (/ a1) (t_mt t) x 3 3 3 (charges 6)); [|now apply Rinv_0_lt_compat|lra|lra|cbn; lra|rewrite E; exact Hpos].
      now rewrite E.
  Qed.
  (** a scheme evaluated at the border of the next region agrees with the scheme of that region *)
  Lemma borders : inverse_alpha t ae 6 (t_mt t) = inverse_alpha t ae 5 (t_mt t) /\
    inverse_alpha t ae 5 (t_mb t) = inverse_alpha t ae 4 (t_mb t) /\ inverse_alpha t ae 4 (t_mc t) = inverse_alpha t ae 3 (t_mc t).
  Proof. unfold inverse_alpha, inverse_change. repeat split; ring. Qed.
End A.

(** *** transverse decay constants *)
Lemma f_perp_spec (alpha_s : nat -> R -> R) t f x n m : ordered t -> x <> 2 -> flavours_below t m x ->
  (n = None \/ exists k, n = Some k /\ (3 <= k <= 6)%nat) ->
  get_f_perp alpha_s t f x n =
    Some (prod (map (f_perp_factor alpha_s) (f_perp_path t (match n with Some k => Nat.min k m | None => m end) x)) * f).
Proof.
  intros (H1 & H2 & H3) Hx Hm Hn. unfold get_f_perp. destruct (Req_EM_T x 2); [easy|].
  destruct t as [mc mb mt]. unfold flavours_below in Hm. cbn [t_mc t_mb t_mt] in *.
  destruct Hn as [->|(k & -> & Hk)].
  - destruct Hm as [(-> & A)|[(-> & A)|[(-> & A)|(-> & A)]]];
    cbn [f_perp_loop threshold Nat.eqb min_thr thr_or t_mc t_mb t_mt]; unfold Rmin, reqb; dest;
    cbn [f_perp_path map f_perp_factor prod fold_right t_mc t_mb t_mt]; unfold rg_factor; try subst; f_equal; ring.
  - assert (Hk' : k = 3%nat \/ k = 4%nat \/ k = 5%nat \/ k = 6%nat) by lia. clear Hk.
    destruct Hk' as [-> | [-> | [-> | ->]]]; destruct Hm as [(-> & A)|[(-> & A)|[(-> & A)|(-> & A)]]];
    cbn [f_perp_loop threshold Nat.eqb min_thr thr_or t_mc t_mb t_mt Nat.min]; unfold Rmin, reqb; dest;
    cbn [f_perp_path map f_perp_factor prod fold_right t_mc t_mb t_mt]; unfold rg_factor; try subst; f_equal; ring.
Qed.
