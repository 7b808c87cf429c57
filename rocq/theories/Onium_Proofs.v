(** * Lemmas about quarkonium decays *)
From Coq Require Import Reals Lra.
From Coquelicot Require Import Coquelicot.
From Coq Require Import String List.
From Verif Require Import Base Basics_Model Basics_Proofs Decays_Model Onium_Model.
Import ListNotations.
Local Open Scope R_scope.

Definition quad (p v t : R) : R := (2 + p ^ 2) / 12 * v ^ 2 + 4 * (1 + 2 * p ^ 2) / 3 * t ^ 2 + 2 * p * (v * t).
Lemma quad_pos p v t : 0 <= quad p v t.
Proof.
  assert (E : quad p v t = (((2 + p ^ 2) * v + 12 * p * t) ^ 2 + 32 * (1 - p ^ 2) ^ 2 * t ^ 2) / (12 * (2 + p ^ 2))) by (unfold quad; field; nra).
  rewrite E. apply Rdiv_le_0_compat; [|nra].
  pose proof (pow2_ge_0 ((2 + p ^ 2) * v + 12 * p * t)). pose proof (Rmult_le_pos _ _ (pow2_ge_0 (1 - p ^ 2)) (pow2_ge_0 t)). lra.
Qed.
Definition amp2 (y1 y2 : R) (VL VR TL TR : C) : R :=
  (Cmod VL ^ 2 + Cmod VR ^ 2) / 12 * (2 - y1 ^ 2 - y2 ^ 2 - (y1 ^ 2 - y2 ^ 2) ^ 2) + y1 * y2 * Re (VL * Cconj VR)%C
  + (4 / 3 * (Cmod TL ^ 2 + Cmod TR ^ 2) * (1 + y1 ^ 2 + y2 ^ 2 - 2 * (y1 ^ 2 - y2 ^ 2) ^ 2) + 16 * y1 * y2 * Re (TR * Cconj TL)%C)
  + (2 * y1 * (1 + y2 ^ 2 - y1 ^ 2) * Re (VR * Cconj TR + VL * Cconj TL)%C + 2 * y2 * (1 + y1 ^ 2 - y2 ^ 2) * Re (VL * Cconj TR + VR * Cconj TL)%C).
Lemma amp2_squares y1 y2 VL VR TL TR : amp2 y1 y2 VL VR TL TR =
  (1 - (y1 - y2) ^ 2) / 2 * (quad (y1 + y2) (fst VR + fst VL) (fst TR + fst TL) + quad (y1 + y2) (snd VR + snd VL) (snd TR + snd TL))
  + (1 - (y1 + y2) ^ 2) / 2 * (quad (y1 - y2) (fst VR - fst VL) (fst TR - fst TL) + quad (y1 - y2) (snd VR - snd VL) (snd TR - snd TL)).
Proof.
  unfold amp2, quad. rewrite !cmod_sq. destruct VL as [a b], VR as [c e], TL as [f g], TR as [h i].
  cbn [fst snd Re Im Cplus Cmult Cconj]. field.
Qed.
Lemma amp2_pos y1 y2 VL VR TL TR : 0 <= y1 -> 0 <= y2 -> y1 + y2 <= 1 -> 0 <= amp2 y1 y2 VL VR TL TR.
Proof.
  intros h1 h2 h. rewrite amp2_squares.
  assert (q : forall p a b c e, 0 <= quad p a b + quad p c e) by (intros; generalize (quad_pos p a b) (quad_pos p c e); lra).
  apply Rplus_le_le_0_compat; (apply Rmult_le_pos; [nra | apply q]).
Qed.
Lemma lambda_pos a b c : 0 <= lambda_K a b c. Proof. unfold lambda_K. cbv zeta. destruct Rlt_dec; lra. Qed.
Lemma lambda_sym a b c : lambda_K a b c = lambda_K a c b.
Proof. unfold lambda_K. cbv zeta. replace (a ^ 2 + c ^ 2 + b ^ 2 - 2 * (a * c + c * b + a * b)) with (a ^ 2 + b ^ 2 + c ^ 2 - 2 * (a * b + b * c + a * c)) by ring. reflexivity. Qed.
Lemma pref_pos (d : onium) x y : 0 <= o_tau d -> 0 <= o_m d -> 0 <= o_tau d * o_m d / (16 * PI) * sqrt (lambda_K 1 x y).
Proof.
  intros ht hm. pose proof PI_RGT_0. apply Rmult_le_pos; [|apply sqrt_pos]. apply Rdiv_le_0_compat; [apply Rmult_le_pos; assumption | lra].
Qed.
Lemma Vll_rate_is d y1 y2 a : Vll_rate d y1 y2 a = o_tau d * o_m d / (16 * PI) * sqrt (lambda_K 1 (y1 ^ 2) (y2 ^ 2)) * amp2 y1 y2 (VLc a) (VRc a) (TLc a) (TRc a).
Proof. unfold Vll_rate, amp2. cbv zeta. reflexivity. Qed.
Lemma spin0_pos d y1 y2 s : 0 <= o_tau d -> 0 <= o_m d -> 0 <= y1 -> 0 <= y2 -> y1 + y2 <= 1 -> 0 <= spin0_rate d y1 y2 s.
Proof.
  intros ht hm h1 h2 h. unfold spin0_rate. cbv zeta. apply Rmult_le_pos; [apply pref_pos; assumption|].
  rewrite !cmod_sq. destruct s as [[a b] [c e]]. cbn [fst snd Re Im Cmult Cconj].
  assert (hp : 2 * (y1 * y2) <= 1 - y1 ^ 2 - y2 ^ 2) by nra.
  assert (hq : 0 <= y1 * y2) by nra.
  set (q := y1 * y2) in *.
  assert (E : (1 - y1 ^ 2 - y2 ^ 2) * (a ^ 2 + b ^ 2 + (c ^ 2 + e ^ 2)) - 4 * y1 * y2 * (a * c - b * - e)
    = (1 - y1 ^ 2 - y2 ^ 2 - 2 * q) * (a ^ 2 + b ^ 2 + (c ^ 2 + e ^ 2)) + 2 * q * ((a - c) ^ 2 + (b - e) ^ 2)) by (unfold q; ring).
  rewrite E. apply Rplus_le_le_0_compat; apply Rmult_le_pos.
  - lra.
  - generalize (pow2_ge_0 a) (pow2_ge_0 b) (pow2_ge_0 c) (pow2_ge_0 e). lra.
  - lra.
  - generalize (pow2_ge_0 (a - c)) (pow2_ge_0 (b - e)). lra.
Qed.
Lemma re_conj (a b : C) : Re (Cconj a * Cconj (Cconj b))%C = Re (a * Cconj b)%C.
Proof. destruct a, b. cbn. ring. Qed.
Lemma cmod_conj (a : C) : Cmod (Cconj a) ^ 2 = Cmod a ^ 2.
Proof. rewrite !cmod_sq. destruct a. cbn [fst snd Cconj]. ring. Qed.
(** exchange of the two leptons: complex conjugate vector amplitudes, exchanged tensor amplitudes *)
Lemma amp2_swap y1 y2 VL VR TL TR : amp2 y1 y2 VL VR TL TR = amp2 y2 y1 (Cconj VL) (Cconj VR) (Cconj TR) (Cconj TL).
Proof.
  unfold amp2. rewrite !cmod_sq. destruct VL as [a b], VR as [c e], TL as [f g], TR as [h i]. cbn [fst snd Re Im Cplus Cmult Cconj]. field.
Qed.
Lemma lfv_swap d wc l1 l2 : l1 <> l2 -> getVT_lfv d wc l2 l1 =
  let a := getVT_lfv d wc l1 l2 in VT (Cconj (VLc a)) (Cconj (VRc a)) (Cconj (TRc a)) (Cconj (TLc a)).
Proof.
  intro N. destruct l1, l2; try contradiction; unfold getVT_lfv; cbn [ll_of s3 lep3_eqb andb VLc VRc TLc TRc]; cbv zeta; cbn [VLc VRc TLc TRc]; rewrite ?Cconj_conj; reflexivity.
Qed.

(** ** kinematic functions of V -> l l' gamma as functions of mu *)
Definition fS (m : R) : R := 1 - 6 * m + 3 * m ^ 2 * (1 - 2 * ln m) + 2 * m ^ 3.
Definition fA (m : R) : R := 8 - 45 * m + 36 * m ^ 2 + m ^ 3 + 6 * (m - 6) * m ^ 2 * ln m.
Definition fSt (m : R) : R := 3 - 30 * m - 20 * m ^ 2 + 60 * m ^ 3 - 15 * m ^ 4 + 2 * m ^ 5 - 60 * m ^ 2 * ln m.
Definition fSh (m : R) : R := 1 + m * (- 8 + 8 * m ^ 2 - m ^ 3 - 12 * m * ln m).
(** a function that vanishes at 1 and has a derivative of one sign on (0, 1) *)
Lemma down (f f' : R -> R) : (forall x, 0 < x -> is_derive f x (f' x)) -> f 1 = 0 :> R -> (forall x, 0 < x <= 1 -> f' x <= 0) -> forall x, 0 < x <= 1 -> 0 <= f x.
Proof.
  intros D E H x hx. destruct (Rle_lt_or_eq_dec x 1 (proj2 hx)) as [L | ->]; [|lra].
  destruct (MVT_gen f x 1 f') as (c & hc & Hc).
  - intros y hy. apply D. rewrite Rmin_left in hy by lra. lra.
  - intros y hy. apply derivable_continuous_pt. exists (f' y). apply is_derive_Reals. apply D. rewrite Rmin_left in hy by lra. lra.
  - rewrite Rmin_left, Rmax_right in hc by lra. specialize (H c ltac:(lra)). rewrite E in Hc. nra.
Qed.
Lemma up (f f' : R -> R) : (forall x, 0 < x -> is_derive f x (f' x)) -> f 1 = 0 :> R -> (forall x, 0 < x <= 1 -> 0 <= f' x) -> forall x, 0 < x <= 1 -> f x <= 0.
Proof.
  intros D E H x hx. cut (0 <= - f x); [lra|]. apply (down (fun x => - f x) (fun x => - f' x)); try assumption.
  - intros y hy. apply (is_derive_opp f). apply D. exact hy.
  - lra.
  - intros y hy. specialize (H y hy). lra.
Qed.
(** - ln x <= (1/x - x)/2 on (0, 1] *)
Lemma ln_bound x : 0 < x <= 1 -> 0 <= 1 - x ^ 2 + 2 * x * ln x.
Proof.
  intro hx. assert (0 <= 1 / x - x + 2 * ln x).
  { refine (down (fun x => 1 / x - x + 2 * ln x) (fun x => - (1 / x ^ 2) - 1 + 2 / x) _ _ _ x hx); [ | cbv beta; rewrite ln_1; field | ].
    - intros y hy. auto_derive; [repeat split; lra|]. field. lra.
    - intros y hy. assert (E : - (1 / y ^ 2) - 1 + 2 / y = - ((1 / y - 1) ^ 2)) by (field; lra). rewrite E. pose proof (pow2_ge_0 (1 / y - 1)). lra. }
  assert (E : 1 - x ^ 2 + 2 * x * ln x = x * (1 / x - x + 2 * ln x)) by (field; lra). rewrite E. apply Rmult_le_pos; lra.
Qed.
Lemma fS_pos m : 0 < m <= 1 -> 0 <= fS m.
Proof.
  apply (down fS (fun x => - 6 * (1 - x ^ 2 + 2 * x * ln x))).
  - intros y hy. unfold fS. auto_derive; [exact hy|]. field. lra.
  - unfold fS. rewrite ln_1. ring.
  - intros x hx. generalize (ln_bound x hx). lra.
Qed.
Lemma fA_pos m : 0 < m <= 1 -> 0 <= fA m.
Proof.
  apply (down fA (fun x => 9 * (- 5 + 4 * x + x ^ 2 + 2 * x * (x - 4) * ln x))).
  - intros y hy. unfold fA. auto_derive; [exact hy|]. field. lra.
  - unfold fA. rewrite ln_1. ring.
  - intros x hx. pose proof (ln_bound x hx) as B.
    assert (P : 0 <= (4 - x) * (1 - x ^ 2 + 2 * x * ln x)) by (apply Rmult_le_pos; lra).
    assert (Q : 0 <= (1 - x) ^ 3) by (apply pow_le; lra).
    assert (E : - 5 + 4 * x + x ^ 2 + 2 * x * (x - 4) * ln x = - ((4 - x) * (1 - x ^ 2 + 2 * x * ln x)) - (1 - x) ^ 3) by ring. lra.
Qed.
Lemma fSh_pos m : 0 < m <= 1 -> 0 <= fSh m.
Proof.
  apply (down fSh (fun x => - 8 + 24 * x ^ 2 - 4 * x ^ 3 - 24 * x * ln x - 12 * x)).
  - intros y hy. unfold fSh. auto_derive; [exact hy|]. field. lra.
  - unfold fSh. rewrite ln_1. ring.
  - apply (up _ (fun x => 48 * x - 12 * x ^ 2 - 24 * ln x - 36)).
    + intros y hy. auto_derive; [exact hy|]. field. lra.
    + rewrite ln_1. ring.
    + apply (down _ (fun x => 48 - 24 * x - 24 / x)).
      * intros y hy. auto_derive; [exact hy|]. field. lra.
      * rewrite ln_1. ring.
      * intros x hx. assert (E : 48 - 24 * x - 24 / x = - (24 * (1 - x) ^ 2 / x)) by (field; lra). rewrite E.
        assert (0 <= 24 * (1 - x) ^ 2 / x) by (apply Rdiv_le_0_compat; [pose proof (pow2_ge_0 (1 - x)); lra | lra]). lra.
Qed.
Lemma fSt_pos m : 0 < m <= 1 -> 0 <= fSt m.
Proof.
  apply (down fSt (fun x => - 30 - 100 * x + 180 * x ^ 2 - 60 * x ^ 3 + 10 * x ^ 4 - 120 * x * ln x)).
  - intros y hy. unfold fSt. auto_derive; [exact hy|]. field. lra.
  - unfold fSt. rewrite ln_1. ring.
  - apply (up _ (fun x => - 220 + 360 * x - 180 * x ^ 2 + 40 * x ^ 3 - 120 * ln x)).
    + intros y hy. auto_derive; [exact hy|]. field. lra.
    + rewrite ln_1. ring.
    + apply (down _ (fun x => 360 - 360 * x + 120 * x ^ 2 - 120 / x)).
      * intros y hy. auto_derive; [exact hy|]. field. lra.
      * rewrite ln_1. ring.
      * intros x hx. assert (E : 360 - 360 * x + 120 * x ^ 2 - 120 / x = - (120 * (1 - x) ^ 3 / x)) by (field; lra). rewrite E.
        assert (0 <= 120 * (1 - x) ^ 3 / x) by (apply Rdiv_le_0_compat; [pose proof (pow_le (1 - x) 3 ltac:(lra)); lra | lra]). lra.
Qed.
Lemma F_S_is y : y <> 0 -> F_S y = fS (y ^ 2) / 12. Proof. intro H. unfold F_S. cbv zeta. destruct Req_EM_T as [E | _]; [exfalso; apply (pow_nonzero y 2 H E) | reflexivity]. Qed.
Lemma F_A_is y : y <> 0 -> F_A y = fA (y ^ 2) / 36. Proof. intro H. unfold F_A. cbv zeta. destruct Req_EM_T as [E | _]; [exfalso; apply (pow_nonzero y 2 H E) | reflexivity]. Qed.
Lemma Ftilde_S_is y : y <> 0 -> Ftilde_S y = fSt (y ^ 2) / 120. Proof. intro H. unfold Ftilde_S. cbv zeta. destruct Req_EM_T as [E | _]; [exfalso; apply (pow_nonzero y 2 H E) | reflexivity]. Qed.
Lemma Fhat_P_is y : y <> 0 -> Fhat_P y = (fSh (y ^ 2) - 1) / 12.
Proof. intro H. unfold Fhat_P. cbv zeta. destruct Req_EM_T as [E | _]; [exfalso; apply (pow_nonzero y 2 H E) | unfold fSh; field]. Qed.
Lemma Fhat_S_is y : y <> 0 -> Fhat_S y = fSh (y ^ 2) / 12.
Proof. intro H. unfold Fhat_S. cbv zeta. destruct Req_EM_T as [E | _]; [exfalso; apply (pow_nonzero y 2 H E) | rewrite Fhat_P_is by exact H; field]. Qed.
(** m ln m -> 0 *)
Lemma mln_bound m : 0 < m <= 1 -> Rabs (m * ln m) <= sqrt m.
Proof.
  intro h. assert (hs : 0 < sqrt m <= 1) by (split; [apply sqrt_lt_R0; lra | rewrite <- sqrt_1; apply sqrt_le_1_alt; lra]).
  assert (E : m = sqrt m * sqrt m) by (symmetry; apply sqrt_sqrt; lra).
  pose proof (ln_bound _ hs) as B. assert (L : ln m <= 0) by (rewrite <- ln_1; destruct (Rle_lt_or_eq_dec m 1 (proj2 h)) as [l | ->]; [left; apply ln_increasing; lra | lra]).
  assert (E2 : ln m = 2 * ln (sqrt m)). { rewrite E at 1. rewrite ln_mult by lra. ring. }
  rewrite Rabs_left1 by nra. set (s := sqrt m) in *. rewrite E2. replace (- (m * (2 * ln s))) with (s * - (2 * s * ln s)) by (rewrite E; ring).
  assert (- (2 * s * ln s) <= 1) by nra. nra.
Qed.
