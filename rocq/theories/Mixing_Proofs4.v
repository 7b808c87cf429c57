From Coq Require Import Reals Lra.
From Coquelicot Require Import Complex.
From Verif Require Import Base BaseLemmas Basics_Model Basics_Spec Basics_Proofs Mixing_Model Mixing_Spec Mixing_Proofs Mixing_Proofs2 Mixing_Proofs3.
Local Open Scope R_scope.

(** the quark fields are multiplied with phases *)
Definition rephased (a b : nat -> C) (V : nat -> nat -> C) : nat -> nat -> C := fun k i => (a k * Cconj (b i) * V k i)%C.
Lemma re_up a b V k i j : Cmod (a k) = 1 ->
  (rephased a b V k i * Cconj (rephased a b V k j))%C = (Cconj (b i) * b j * (V k i * Cconj (V k j)))%C.
Proof.
  intros H. unfold rephased. rewrite !Cconj_mult, Cconj_conj.
  transitivity ((a k * Cconj (a k)) * (Cconj (b i) * b j * (V k i * Cconj (V k j))))%C; [ring |]. rewrite (unit_conj _ H). ring.
Qed.
Lemma re_down a b V k i j : Cmod (b k) = 1 ->
  (rephased a b V i k * Cconj (rephased a b V j k))%C = (a i * Cconj (a j) * (V i k * Cconj (V j k)))%C.
Proof.
  intros H. unfold rephased. rewrite !Cconj_mult, Cconj_conj.
  transitivity ((b k * Cconj (b k)) * (a i * Cconj (a j) * (V i k * Cconj (V j k))))%C; [ring |]. rewrite (unit_conj _ H). ring.
Qed.
Lemma ratio_phase (p u t : C) : p <> RtoC 0 -> ((p * u) / (p * t))%C = (u / t)%C.
Proof. intros H. unfold Cdiv. rewrite (Cinv_mult_any p t H). transitivity ((p * / p) * (u * / t))%C; [ring |]. rewrite (Cinv_r p H). ring. Qed.
Lemma cinv_factor (q z t : C) : t <> RtoC 0 -> (q * z / t)%C = (q * (z / t))%C.
Proof. intros. unfold Cdiv. ring. Qed.

Section Re.
  Variable get_mt_mt : params -> R.
  Variable get_mq : string -> params -> R -> R.
  Variable get_alpha_s : params -> R -> R.
  Variable scale : meson -> R.
  Variable K_mixing : unitarity.
  Variables a b : nat -> C.
  Hypothesis Ha : forall k, Cmod (a k) = 1.
  Hypothesis Hb : forall i, Cmod (b i) = 1.
  Variable V : nat -> nat -> C.
  Variable par : params.
  Let V' := rephased a b V.
  (** the phase of the products of CKM elements of a meson *)
  Definition phase_of (m : meson) : C :=
    match m with B0 => Cconj (b 2%nat) * b 0%nat | Bs => Cconj (b 2%nat) * b 1%nat | K0 => Cconj (b 1%nat) * b 0%nat | D0 => a 0%nat * Cconj (a 1%nat) end%C.
  Lemma phase_unit m : Cmod (phase_of m) = 1.
  Proof. destruct m; cbn [phase_of]; rewrite Cmod_mult, Cmod_conj, ?Ha, ?Hb; ring. Qed.
  Lemma xi_re m q : m <> D0 -> In q ["u"; "c"; "t"]%string -> xi_of V' q (meson_quark m) = (phase_of m * xi_of V q (meson_quark m))%C.
  Proof using Ha.
    clear - Ha.
    intros Hm Hq. assert (X : exists k, In (q, k) [("u", 0); ("c", 1); ("t", 2)]%string%nat).
    { cbn in Hq. destruct Hq as [<- | [<- | [<- | []]]]; [exists 0%nat | exists 1%nat | exists 2%nat]; cbn; tauto. }
    destruct X as [k Hk]. destruct m; cbn [meson_quark phase_of]; try (exfalso; apply Hm; reflexivity).
    - rewrite !(fun W => xi_up_val W q k "b" 2 "d" 0 Hk)%string%nat by (cbn; tauto). apply re_up, Ha.
    - rewrite !(fun W => xi_up_val W q k "b" 2 "s" 1 Hk)%string%nat by (cbn; tauto). apply re_up, Ha.
    - rewrite !(fun W => xi_up_val W q k "s" 1 "d" 0 Hk)%string%nat by (cbn; tauto). apply re_up, Ha.
  Qed.
  Lemma xi_re_D q : In q ["b"; "s"]%string -> xi_of V' q ("u", "c")%string = (phase_of D0 * xi_of V q ("u", "c")%string)%C.
  Proof using Hb.
    clear - Hb.
    intros Hq. assert (X : exists k, In (q, k) [("d", 0); ("s", 1); ("b", 2)]%string%nat).
    { cbn in Hq. destruct Hq as [<- | [<- | []]]; [exists 2%nat | exists 1%nat]; cbn; tauto. }
    destruct X as [k Hk]. cbn [phase_of].
    rewrite !(fun W => xi_down_val W q k "u" 0 "c" 1 Hk)%string%nat by (cbn; tauto). apply re_down, Hb.
  Qed.
  Let cv := cvll_d get_mt_mt K_mixing.
  Lemma cv_re m : m <> D0 -> cv V' par m = (phase_of m * phase_of m * cv V par m)%C.
  Proof.
    intros Hm. unfold cv, cvll_d. destruct m; [| | destruct K_mixing | congruence].
    all: rewrite ?(xi_re B0 "t"), ?(xi_re Bs "t"), ?(xi_re K0 "t"), ?(xi_re K0 "u"), ?(xi_re K0 "c") by (cbn; tauto || congruence); ring.
  Qed.
  Let amp := get_M12_G12 get_mt_mt get_mq get_alpha_s scale K_mixing.
  Lemma sm_re m : sm get_mt_mt get_mq get_alpha_s scale K_mixing V' par m = (phase_of m * phase_of m * sm get_mt_mt get_mq get_alpha_s scale K_mixing V par m)%C.
  Proof.
    unfold sm, M12_u_SM, M12_d_SM, D_SM. destruct m.
    - rewrite (cv_re B0 ltac:(discriminate) : cvll_d _ _ V' par B0 = _); unfold cv; ring.
    - rewrite (cv_re Bs ltac:(discriminate) : cvll_d _ _ V' par Bs = _); unfold cv; ring.
    - rewrite (cv_re K0 ltac:(discriminate) : cvll_d _ _ V' par K0 = _); unfold cv; ring.
    - rewrite !xi_re_D by (cbn; tauto). unfold Cdiv. ring.
  Qed.
  Lemma amp_re m : amp V' par [] m = ((phase_of m * phase_of m * fst (amp V par [] m))%C, (phase_of m * phase_of m * snd (amp V par [] m))%C).
  Proof.
    apply injective_projections; cbn [fst snd].
    - unfold amp. rewrite !M12_split, np_nil. rewrite sm_re. ring.
    - unfold amp, get_M12_G12. cbn [snd]. unfold G12_d_SM, G12_u_SM, D_SM. destruct m.
      + rewrite (sm_re B0 : M12_d_SM _ _ _ _ _ V' par B0 = _). rewrite (xi_re B0 "t"), (xi_re B0 "u") by (cbn; tauto || congruence).
        replace (RtoC (par ("Gamma12_" ++ meson_name B0 ++ "_a")%string) * (phase_of B0 * xi_of V "u" (meson_quark B0)))%C
          with (phase_of B0 * (RtoC (par ("Gamma12_" ++ meson_name B0 ++ "_a")%string) * xi_of V "u" (meson_quark B0)))%C by ring.
        rewrite ratio_phase by (apply unit_ne, phase_unit). unfold sm. ring.
      + rewrite (sm_re Bs : M12_d_SM _ _ _ _ _ V' par Bs = _). rewrite (xi_re Bs "t"), (xi_re Bs "u") by (cbn; tauto || congruence).
        replace (RtoC (par ("Gamma12_" ++ meson_name Bs ++ "_a")%string) * (phase_of Bs * xi_of V "u" (meson_quark Bs)))%C
          with (phase_of Bs * (RtoC (par ("Gamma12_" ++ meson_name Bs ++ "_a")%string) * xi_of V "u" (meson_quark Bs)))%C by ring.
        rewrite ratio_phase by (apply unit_ne, phase_unit). unfold sm. ring.
      + ring.
      + rewrite !xi_re_D by (cbn; tauto). unfold Cdiv. ring.
  Qed.
End Re.

Lemma S_re p M G A eta : Cmod p = 1 -> h12 M G <> RtoC 0 -> DeltaM M G <> 0 ->
  S_cp ((p * p * M)%C, (p * p * G)%C) (p * A)%C (Cconj (p * A)%C) eta = S_cp (M, G) A (Cconj A) eta.
Proof.
  intros Hp H HD. rewrite !S_qpos.
  assert (Hpp : Cmod (p * p)%C = 1) by (rewrite Cmod_mult, Hp; ring).
  pose proof (qpos_same _ _ _ _ HD (square_phase (p * p)%C M G Hpp H)) as E. rewrite h12_phase in E.
  assert (Q : (qpos (p * p * M)%C (p * p * G)%C * (p * p))%C = qpos M G).
  { apply (f_equal (fun z => z * / h12 M G)%C) in E.
    transitivity (qpos (p * p * M)%C (p * p * G)%C * (p * p * h12 M G) * / h12 M G)%C; [field; exact H |]. rewrite E. field. exact H. }
  assert (X : (RtoC eta * qpos (p * p * M)%C (p * p * G)%C * (p * A) / Cconj (p * A)%C)%C = (RtoC eta * qpos M G * A / Cconj A)%C).
  { rewrite <- Q. rewrite Cconj_mult. unfold Cdiv. rewrite Cinv_mult_any by (apply Cconj_ne, unit_ne, Hp).
    assert (I : (/ Cconj p)%C = p). { transitivity ((p * Cconj p) * / Cconj p)%C; [rewrite (unit_conj p Hp); ring |]. field. apply Cconj_ne, unit_ne, Hp. }
    rewrite I. ring. }
  rewrite X. reflexivity.
Qed.

(** conjugation *)
Lemma DeltaM_conj_ne M G : h12 M G <> RtoC 0 -> h21 M G <> RtoC 0 -> DeltaM M G <> 0 -> DeltaM (Cconj M) (Cconj G) <> 0.
Proof.
  intros H H' HD. pose proof (square_conj M G H H') as S. rewrite DeltaM_z in *. destruct S as [-> | ->]; [exact HD |]. unfold Copp. cbn [fst]. lra.
Qed.
Lemma qpos_conj M G : h12 M G <> RtoC 0 -> h21 M G <> RtoC 0 -> DeltaM M G <> 0 ->
  (qpos (Cconj M) (Cconj G) * qpos M G)%C = RtoC 1.
Proof.
  intros H H' HD. pose proof (qpos_same _ _ _ _ HD (square_conj M G H H')) as E. rewrite h12_conj in E.
  rewrite <- (qpos_sq M G H) in E.
  assert (Q : qpos M G <> RtoC 0). { intros Z. apply H'. rewrite <- (qpos_sq M G H), Z. ring. }
  apply (f_equal (fun z => z * / (qpos M G * h12 M G))%C) in E.
  transitivity (qpos (Cconj M) (Cconj G) * (qpos M G * qpos M G * h12 M G) * / (qpos M G * h12 M G))%C; [field; tauto |]. rewrite E. field. tauto.
Qed.
Lemma qp_mod_qpos M G : Cmod (qpos M G) = Cmod (q_over_p M G).
Proof. unfold qpos. destruct (Rlt_dec _ _); [apply Cmod_opp | reflexivity]. Qed.
Lemma qp_mod_conj M G : h12 M G <> RtoC 0 -> h21 M G <> RtoC 0 -> Cmod (q_over_p (Cconj M) (Cconj G)) * Cmod (q_over_p M G) = 1.
Proof.
  intros H H'. pose proof (qp_mod4 M G H) as E1. assert (K : h12 (Cconj M) (Cconj G) <> RtoC 0) by exact H'.
  pose proof (qp_mod4 (Cconj M) (Cconj G) K) as E2. rewrite h12_conj, h21_conj in E2.
  pose proof (proj1 (Cmod_gt_0 _) H) as P1. pose proof (proj1 (Cmod_gt_0 _) H') as P2.
  pose proof (Cmod_ge_0 (q_over_p (Cconj M) (Cconj G))) as Q1. pose proof (Cmod_ge_0 (q_over_p M G)) as Q2.
  set (r := Cmod (q_over_p M G)) in *. set (s := Cmod (q_over_p (Cconj M) (Cconj G))) in *.
  assert (E : (s * r) ^ 4 = 1).
  { rewrite <- E1 in E2. assert (E3 : (s * r) ^ 4 * Cmod (h12 M G) ^ 2 = Cmod (h12 M G) ^ 2) by (rewrite <- E2 at 2; ring).
    assert (0 < Cmod (h12 M G) ^ 2) by (apply pow_lt; exact P1). apply Rmult_eq_reg_r with (Cmod (h12 M G) ^ 2); lra. }
  assert (P : 0 <= s * r) by (apply Rmult_le_pos; assumption). set (t := s * r) in *. clearbody t.
  assert (E' : (t - 1) * ((t + 1) * (t ^ 2 + 1)) = 0) by (replace ((t - 1) * ((t + 1) * (t ^ 2 + 1))) with (t ^ 4 - 1) by ring; lra).
  apply Rmult_integral in E' as [E' | E']; [lra |]. exfalso. assert (0 < (t + 1) * (t ^ 2 + 1)); [| lra].
  apply Rmult_lt_0_compat; [lra |]. pose proof (pow2_ge_0 t). lra.
Qed.
Lemma a_fs_conj M G : M <> RtoC 0 -> G <> RtoC 0 -> a_fs (Cconj M) (Cconj G) = - a_fs M G.
Proof.
  intros HM HG. rewrite !a_fs_im; try assumption; try (apply Cconj_ne; assumption). rewrite <- Cconj_div. reflexivity.
Qed.
Lemma snd_div_sq (z : C) : z <> RtoC 0 -> snd (/ z)%C = - snd z / Cmod z ^ 2.
Proof. intros _. rewrite cmod_sq. destruct z as [u v]. reflexivity. Qed.
Lemma S_conj M G A eta : h12 M G <> RtoC 0 -> h21 M G <> RtoC 0 -> DeltaM M G <> 0 -> A <> RtoC 0 -> (eta = 1 \/ eta = -1) ->
  S_cp (Cconj M, Cconj G) (Cconj A) A eta = - S_cp (M, G) A (Cconj A) eta.
Proof.
  intros H H' HD HA He. rewrite !S_qpos.
  set (z := (RtoC eta * qpos M G * A / Cconj A)%C).
  assert (Q : qpos M G <> RtoC 0). { intros Z. apply H'. rewrite <- (qpos_sq M G H), Z. ring. }
  assert (Ee : (RtoC eta * RtoC eta)%C = RtoC 1) by (rewrite <- RtoC_mult; f_equal; destruct He as [-> | ->]; ring).
  assert (Ene : RtoC eta <> RtoC 0) by (intros Z; injection Z; destruct He; lra).
  pose proof (Cconj_ne A HA) as HA'.
  assert (Hz : z <> RtoC 0). { unfold z, Cdiv. repeat apply Cmult_neq_0; try assumption. intros Z.
    apply (f_equal (fun w => w * Cconj A)%C) in Z. rewrite Cinv_l in Z by exact HA'. replace (RtoC 0 * Cconj A)%C with (RtoC 0) in Z by ring. injection Z. lra. }
  assert (E : (RtoC eta * qpos (Cconj M) (Cconj G) * Cconj A / A)%C = (/ z)%C).
  { pose proof (qpos_conj M G H H' HD) as E.
    assert (E2 : ((RtoC eta * qpos (Cconj M) (Cconj G) * Cconj A / A) * z)%C = RtoC 1).
    { unfold z. transitivity ((RtoC eta * RtoC eta) * (qpos (Cconj M) (Cconj G) * qpos M G))%C; [field; tauto |]. rewrite Ee, E. ring. }
    transitivity ((RtoC eta * qpos (Cconj M) (Cconj G) * Cconj A / A) * z * / z)%C; [field; tauto |]. rewrite E2. ring. }
  rewrite E, (snd_div_sq z Hz), Cmod_inv by exact Hz. pose proof (proj1 (Cmod_gt_0 _) Hz) as P.
  field. pose proof (pow2_ge_0 (Cmod z)). repeat split; lra.
Qed.
(** the phase of a conjugate *)
Lemma phase_conj z : z <> RtoC 0 -> snd z <> 0 \/ 0 < fst z -> phase (Cconj z) = - phase z.
Proof.
  intros Hz Hd. apply (angle_unique (Cconj z)); [now apply Cconj_ne | apply phase_angle; now apply Cconj_ne |].
  destruct (phase_angle z Hz) as [[L U] [Hc Hs]]. unfold is_angle. rewrite Cmod_conj, cos_neg, sin_neg. cbn [fst snd Cconj].
  pose proof (proj1 (Cmod_gt_0 _) Hz) as P.
  assert (N : phase z <> PI).
  { intros U'. rewrite U' in Hc, Hs. rewrite cos_PI in Hc. rewrite sin_PI in Hs. nra. }
  repeat split; try lra.
Qed.
