(** * Theorems about decays of quarkonium to leptons (C187 - C192) *)
From Coq Require Import Reals Lra.
From Coquelicot Require Import Coquelicot.
From Coq Require Import String List.
From Verif Require Import Base Basics_Model Basics_Proofs Decays_Model Onium_Model Onium_Proofs.
Import ListNotations.
Local Open Scope R_scope.

(** the decay to these leptons is allowed *)
Definition open (d : onium) (l1 l2 : lep3) : Prop := 0 < o_m d /\ 0 <= o_tau d /\ 0 <= o_ml d l1 /\ 0 <= o_ml d l2 /\ o_ml d l1 + o_ml d l2 <= o_m d.
Lemma open_y d l1 l2 : open d l1 l2 -> 0 <= o_ml d l1 / o_m d /\ 0 <= o_ml d l2 / o_m d /\ o_ml d l1 / o_m d + o_ml d l2 / o_m d <= 1.
Proof.
  intros (hm & _ & h1 & h2 & h). refine (conj (Rdiv_le_0_compat _ _ h1 hm) (conj (Rdiv_le_0_compat _ _ h2 hm) _)).
  replace (o_ml d l1 / o_m d + o_ml d l2 / o_m d) with ((o_ml d l1 + o_ml d l2) / o_m d) by (field; lra). apply Rle_div_l; [exact hm | lra].
Qed.
Definition jpsi : onium := Onium 3 1 1 1 1 1 1 "cc" (fun l => match l with Le => 1 / 1000 | Lmu => 1 / 10 | Ltau => 2 end) (1 / 137) 1 1.
Example open_meets : open jpsi Le Lmu /\ open jpsi Lmu Lmu /\ open jpsi Le Ltau.
Proof. unfold open, jpsi. cbn. lra. Qed.

(** C187: branching ratios of vector mesons are never negative, whatever the Wilson coefficients *)
Theorem C187_nonneg : forall d wc l1 l2, open d l1 l2 -> 0 <= Vll_br d wc l1 l2.
Proof.
  intros d wc l1 l2 H. destruct (open_y _ _ _ H) as (h1 & h2 & h). destruct H as (hm & ht & _).
  unfold Vll_br. rewrite Vll_rate_is. apply Rmult_le_pos; [apply pref_pos; lra | apply amp2_pos; assumption].
Qed.
Print Assumptions C187_nonneg.
(** both charge combinations have the same branching ratio, and the combined observable is their sum *)
Theorem C187_charges : forall d wc l1 l2, Vll_br d wc l1 l2 = Vll_br d wc l2 l1 /\ Vll_br_comb d wc l1 l2 = 2 * Vll_br d wc l1 l2
  /\ Vll_ratio_comb d wc l1 l2 = Vll_ratio d wc l1 l2 + Vll_ratio d wc l2 l1.
Proof.
  assert (S : forall d wc l1 l2, Vll_br d wc l1 l2 = Vll_br d wc l2 l1).
  { intros d wc l1 l2. destruct (lep3_eqb l1 l2) eqn:E; [destruct l1, l2; try discriminate; reflexivity|].
    assert (N : l1 <> l2) by (intros ->; destruct l2; discriminate).
    assert (E' : lep3_eqb l2 l1 = false) by (destruct l1, l2; try discriminate; reflexivity).
    unfold Vll_br. rewrite E, E', !Vll_rate_is, (lfv_swap d wc l1 l2 N). cbv zeta. cbn [VLc VRc TLc TRc]. rewrite (lambda_sym 1 ((o_ml d l2 / o_m d) ^ 2)).
    f_equal. apply amp2_swap. }
  intros d wc l1 l2. refine (conj (S d wc l1 l2) (conj _ _)).
  - unfold Vll_br_comb. rewrite (S d wc l2 l1). ring.
  - unfold Vll_ratio_comb, Vll_ratio. unfold Rdiv. ring.
Qed.
Print Assumptions C187_charges.
(** photon exchange alone: 4 pi/3 (alpha Q f)^2 tau / m, with the phase space and spin factor of the lepton mass *)
Definition no_np : string -> C := fun _ => RtoC 0.
Theorem C187_photon : forall d l, 0 < o_m d -> 0 <= o_ml d l -> 2 * o_ml d l <= o_m d ->
  Vll_br d no_np l l = 4 * PI / 3 * (o_alpha d * o_Q d * o_f d) ^ 2 * o_tau d / o_m d * (sqrt (1 - 4 * (o_ml d l / o_m d) ^ 2) * (1 + 2 * (o_ml d l / o_m d) ^ 2)).
Proof.
  intros d l hm hl h. assert (E : lep3_eqb l l = true) by (destruct l; reflexivity). unfold Vll_br. rewrite E, Vll_rate_is.
  unfold getVT_lfc, no_np. cbv zeta. cbn [VLc VRc TLc TRc]. set (y := o_ml d l / o_m d) in *. unfold amp2. rewrite !cmod_sq.
  assert (hy : 0 <= y <= 1 / 2). { unfold y. split; [apply Rdiv_le_0_compat; lra | apply Rle_div_l; lra]. }
  assert (L : lambda_K 1 (y ^ 2) (y ^ 2) = 1 - 4 * y ^ 2). { unfold lambda_K. cbv zeta. destruct Rlt_dec as [X | _]; [exfalso; nra | ring]. }
  rewrite L. pose proof PI_RGT_0.
  generalize (sqrt (1 - 4 * y ^ 2)) (sqrt (4 * PI * o_alpha d)) (sqrt 2). intros sq ee s2. cbn [fst snd Re Im RtoC Cplus Cminus Copp Cmult Cconj]. 
  generalize (4 * o_GF d / s2). intro n. generalize (n * ee / (16 * PI ^ 2) * o_ml d l). intro n'. clearbody y. field. lra.
Qed.
Print Assumptions C187_photon.
(** so that without new physics heavier leptons are produced less often, all of them with a rate that differs only by the lepton mass *)
Theorem C187_universality : forall d l l', 0 < o_m d -> 0 <= o_tau d -> 0 <= o_ml d l' -> o_ml d l' <= o_ml d l -> 2 * o_ml d l <= o_m d ->
  Vll_br d no_np l l <= Vll_br d no_np l' l' /\ (o_ml d l' = o_ml d l -> Vll_br d no_np l l = Vll_br d no_np l' l').
Proof.
  intros d l l' hm ht h1 h2 h. rewrite !C187_photon by lra. split; [|intros ->; reflexivity].
  pose proof PI_RGT_0. apply Rmult_le_compat_l.
  - apply Rdiv_le_0_compat; [|exact hm]. apply Rmult_le_pos; [|exact ht]. apply Rmult_le_pos; [lra | apply pow2_ge_0].
  - set (a := o_ml d l / o_m d). set (b := o_ml d l' / o_m d).
    assert (hb : 0 <= b) by (apply Rdiv_le_0_compat; lra). assert (hab : b <= a) by (unfold a, b, Rdiv; apply Rmult_le_compat_r; [left; apply Rinv_0_lt_compat; lra | lra]).
    assert (ha : a <= 1 / 2) by (unfold a; apply Rle_div_l; lra).
    apply Rsqr_incr_0_var.
    + unfold Rsqr. replace (sqrt (1 - 4 * a ^ 2) * (1 + 2 * a ^ 2) * (sqrt (1 - 4 * a ^ 2) * (1 + 2 * a ^ 2))) with (sqrt (1 - 4 * a ^ 2) * sqrt (1 - 4 * a ^ 2) * (1 + 2 * a ^ 2) ^ 2) by ring.
      replace (sqrt (1 - 4 * b ^ 2) * (1 + 2 * b ^ 2) * (sqrt (1 - 4 * b ^ 2) * (1 + 2 * b ^ 2))) with (sqrt (1 - 4 * b ^ 2) * sqrt (1 - 4 * b ^ 2) * (1 + 2 * b ^ 2) ^ 2) by ring.
      rewrite !sqrt_sqrt by nra. assert (A4 : b ^ 4 <= a ^ 4) by (apply pow_incr; lra). assert (A6 : b ^ 6 <= a ^ 6) by (apply pow_incr; lra).
      replace ((1 - 4 * a ^ 2) * (1 + 2 * a ^ 2) ^ 2) with (1 - 12 * a ^ 4 - 16 * a ^ 6) by ring. replace ((1 - 4 * b ^ 2) * (1 + 2 * b ^ 2) ^ 2) with (1 - 12 * b ^ 4 - 16 * b ^ 6) by ring. lra.
    + apply Rmult_le_pos; [apply sqrt_pos | nra].
Qed.
Print Assumptions C187_universality.
(** the ratio to the decay to electrons does not depend on the lifetime *)
Definition with_tau (d : onium) (t : R) : onium := Onium (o_m d) t (o_f d) (o_fT d) (o_a d) (o_Q d) (o_mq d) (o_qq d) (o_ml d) (o_alpha d) (o_alphas d) (o_GF d).
Theorem C187_lifetime : forall d wc l1 l2 t, t <> 0 -> Vll_br (with_tau d t) wc l1 l2 = t * Vll_br (with_tau d 1) wc l1 l2 /\ Vll_ratio (with_tau d t) wc l1 l2 = Vll_ratio (with_tau d 1) wc l1 l2.
Proof.
  assert (E : forall d wc l1 l2 t, Vll_br (with_tau d t) wc l1 l2 = t * Vll_br (with_tau d 1) wc l1 l2).
  { intros. unfold Vll_br. rewrite !Vll_rate_is. change (getVT_lfc (with_tau d t)) with (getVT_lfc d). change (getVT_lfv (with_tau d t)) with (getVT_lfv d).
    change (getVT_lfc (with_tau d 1)) with (getVT_lfc d). change (getVT_lfv (with_tau d 1)) with (getVT_lfv d). unfold with_tau. cbn [o_tau o_m o_ml]. unfold Rdiv. ring. }
  intros d wc l1 l2 t Ht. split; [apply E|]. unfold Vll_ratio. rewrite (E d wc l1 l2 t), (E d wc Le Le t).
  destruct (Req_dec (Vll_br (with_tau d 1) wc Le Le) 0) as [Z | Z]; [rewrite Z, Rmult_0_r; unfold Rdiv; rewrite Rinv_0; ring | field; split; assumption].
Qed.
Print Assumptions C187_lifetime.

Lemma half (z : C) : (z / RtoC 2)%C = (RtoC (1 / 2) * z)%C.
Proof. unfold Cdiv. rewrite <- RtoC_inv by lra. replace (/ 2) with (1 / 2) by field. ring. Qed.
(** C188: decays of scalar and pseudoscalar mesons *)
Theorem C188_nonneg : forall d wc g g' l1 l2, open d l1 l2 -> 0 <= Pll_br d wc g g' l1 l2 /\ 0 <= Sll_br d wc g g' l1 l2.
Proof.
  intros d wc g g' l1 l2 H. destruct (open_y _ _ _ H) as (h1 & h2 & h). destruct H as (hm & ht & _).
  split; apply spin0_pos; lra.
Qed.
Print Assumptions C188_nonneg.
(** scalar mesons: the two charge combinations agree if the (real) coefficients of the gluonic operators follow the leptons *)
Theorem C188_charges : forall d wc (g g' : R) l1 l2, Sll_br d wc (RtoC g) (RtoC g') l1 l2 = Sll_br d wc (RtoC g') (RtoC g) l2 l1.
Proof.
  intros d wc g g' l1 l2. unfold Sll_br, spin0_rate. cbv zeta. rewrite (lambda_sym 1 ((o_ml d l2 / o_m d) ^ 2)).
  unfold getS_S. cbv zeta. cbn [fst snd]. rewrite !cmod_sq.
  generalize (wc (String.append "CSRR_" (String.append (s3 l1) (String.append (s3 l2) (o_qq d))))) (wc (String.append "CSRL_" (String.append (s3 l1) (String.append (s3 l2) (o_qq d)))))
    (wc (String.append "CSRR_" (String.append (s3 l2) (String.append (s3 l1) (o_qq d))))) (wc (String.append "CSRL_" (String.append (s3 l2) (String.append (s3 l1) (o_qq d))))).
  intros [a b] [c e] [a' b'] [c' e']. generalize (sqrt (lambda_K 1 ((o_ml d l1 / o_m d) ^ 2) ((o_ml d l2 / o_m d) ^ 2))) (o_tau d * o_m d / (16 * PI)) (o_a d * 4 * PI / o_alphas d) (o_ml d l1 / o_m d) (o_ml d l2 / o_m d).
  intros. rewrite !(half (RtoC (o_m d) * (RtoC (o_f d) * - Ci))%C). cbn [fst snd Re Im RtoC Ci Cplus Copp Cmult Cconj]. field.
Qed.
Print Assumptions C188_charges.

(** C189: the two charge combinations of a pseudoscalar. With scalar coefficients alone, or vector coefficients alone, they agree; in general they do not *)
Local Infix "+++" := String.append (right associativity, at level 60).
Theorem C189_partial : forall d wc l1 l2,
  ((forall n, In n [("CSRR_" +++ s3 l1 +++ s3 l2 +++ o_qq d)%string; ("CSRL_" +++ s3 l1 +++ s3 l2 +++ o_qq d)%string; ("CSRR_" +++ s3 l2 +++ s3 l1 +++ o_qq d)%string; ("CSRL_" +++ s3 l2 +++ s3 l1 +++ o_qq d)%string] -> wc n = RtoC 0)
   \/ (forall n, String.prefix "CV" n = true -> wc n = RtoC 0)) ->
  Pll_br d wc (RtoC 0) (RtoC 0) l1 l2 = Pll_br d wc (RtoC 0) (RtoC 0) l2 l1.
Proof.
  intros d wc l1 l2 H. unfold Pll_br, spin0_rate. cbv zeta. rewrite (lambda_sym 1 ((o_ml d l2 / o_m d) ^ 2)).
  assert (E : exists a b, (ll_of l1 l2 = (a, b) /\ ll_of l2 l1 = (a, b)) \/ (l1 = l2 /\ ll_of l1 l2 = (a, b))) by (destruct l1, l2; cbn; eexists; eexists; (right; split; reflexivity) || (left; split; reflexivity)).
  destruct E as (a & b & [(e1 & e2) | (-> & _)]); [|reflexivity].
  unfold getS_P. rewrite e1, e2. cbv zeta. cbn [fst snd].
  generalize (sqrt (lambda_K 1 ((o_ml d l1 / o_m d) ^ 2) ((o_ml d l2 / o_m d) ^ 2))) (o_tau d * o_m d / (16 * PI)) (o_a d * 4 * PI / o_alphas d) (o_ml d l1 / o_m d) (o_ml d l2 / o_m d)
    ((o_m d ^ 2 * o_f d - o_a d) / (4 * o_mq d)) (o_f d / 2) (o_ml d l1) (o_ml d l2).
  intros lam pre an y1 y2 h f m1 m2. destruct H as [H | H].
  - rewrite (H _ (or_introl eq_refl)), (H _ (or_intror (or_introl eq_refl))), (H _ (or_intror (or_intror (or_introl eq_refl)))), (H _ (or_intror (or_intror (or_intror (or_introl eq_refl))))).
    match goal with |- context [(RtoC m1 * (?x - ?x') + RtoC m2 * (?y - ?y'))%C] => generalize (x - x')%C (y - y')%C end. intros [x x'] [y y'].
    rewrite !cmod_sq. cbn [fst snd Re Im RtoC Ci Cplus Cminus Copp Cmult Cconj]. ring.
  - rewrite !(H ("CVRR_" +++ _)%string) by reflexivity. rewrite !(H ("CVLR_" +++ _)%string) by reflexivity. rewrite !(H ("CVLL_" +++ _)%string) by reflexivity.
    generalize (wc ("CSRR_" +++ s3 l1 +++ s3 l2 +++ o_qq d)%string) (wc ("CSRL_" +++ s3 l1 +++ s3 l2 +++ o_qq d)%string) (wc ("CSRR_" +++ s3 l2 +++ s3 l1 +++ o_qq d)%string) (wc ("CSRL_" +++ s3 l2 +++ s3 l1 +++ o_qq d)%string).
    intros [x x'] [y y'] [z z'] [w w']. rewrite !cmod_sq. cbn [fst snd Re Im RtoC Ci Cplus Cminus Copp Cmult Cconj]. ring.
Qed.
Print Assumptions C189_partial.
Definition eta : onium := Onium 1 1 2 1 0 1 1 "cc" (fun l => match l with Le => 1 / 10 | Lmu => 1 / 10 | Ltau => 2 end) (1 / 137) 1 1.
Definition wc_sv : string -> C := fun n => if String.eqb n "CSRR_emucc" then RtoC 1 else if String.eqb n "CVRR_muecc" then RtoC 1 else RtoC 0.
Lemma lam_ne : sqrt (lambda_K 1 ((1 / 10 / 1) ^ 2) ((1 / 10 / 1) ^ 2)) <> 0.
Proof. apply Rgt_not_eq, sqrt_lt_R0. unfold lambda_K. cbv zeta. destruct Rlt_dec; lra. Qed.
Lemma pre_ne : 1 * 1 / (16 * PI) <> 0. Proof. pose proof PI_RGT_0. apply Rgt_not_eq, Rdiv_lt_0_compat; lra. Qed.
Theorem C189_refuted : ~ (forall d wc l1 l2, open d l1 l2 -> Pll_br d wc (RtoC 0) (RtoC 0) l1 l2 = Pll_br d wc (RtoC 0) (RtoC 0) l2 l1).
Proof.
  intro H. specialize (H eta wc_sv Le Lmu ltac:(unfold open, eta; cbn; lra)).
  unfold Pll_br, spin0_rate, getS_P, eta, wc_sv in H. cbn [ll_of s3 o_m o_tau o_f o_a o_mq o_qq o_ml o_alphas String.append String.eqb Ascii.eqb Bool.eqb fst snd] in H. cbv zeta in H. rewrite !cmod_sq in H.
  apply Rmult_eq_reg_l in H; [|exact (Rmult_integral_contrapositive_currified _ _ pre_ne lam_ne)].
  cbn [fst snd Re Im RtoC Ci Cplus Cminus Copp Cmult Cconj] in H. lra.
Qed.
Print Assumptions C189_refuted.

(** C190: a vector current of leptons is conserved if the masses are equal, so that it does not contribute; in the code the axial-vector current has this property *)
Definition only_current (d : onium) (wc : string -> C) (s : R) : Prop :=
  (forall n, String.prefix "CV" n = false -> wc n = RtoC 0)
  /\ (wc ("CVLR_mue" +++ o_qq d) - wc ("CVLL_mue" +++ o_qq d))%C = (RtoC s * (wc ("CVRR_mue" +++ o_qq d) - wc ("CVLR_" +++ o_qq d +++ "mue")))%C.
Theorem C190_refuted :
  ~ (forall d wc, open d Le Lmu -> o_ml d Le = o_ml d Lmu -> only_current d wc 1 -> Pll_br d wc (RtoC 0) (RtoC 0) Le Lmu = 0)
  /\ (forall d wc, o_ml d Le = o_ml d Lmu -> only_current d wc (-1) -> Pll_br d wc (RtoC 0) (RtoC 0) Le Lmu = 0).
Proof.
  split.
  - intro H. set (wc := fun n => if String.eqb n "CVRR_muecc" then RtoC 1 else if String.eqb n "CVLR_muecc" then RtoC 1 else RtoC 0).
    assert (O : only_current eta wc 1).
    { split; [|unfold wc; cbn; apply injective_projections; cbn; ring].
      intros n Hn. unfold wc. destruct (String.eqb_spec n "CVRR_muecc") as [-> | _]; [discriminate|]. destruct (String.eqb_spec n "CVLR_muecc") as [-> | _]; [discriminate | reflexivity]. }
    specialize (H eta wc ltac:(unfold open, eta; cbn; lra) eq_refl O). clear O.
    unfold Pll_br, spin0_rate, getS_P, eta, wc in H. cbn [ll_of s3 o_m o_tau o_f o_a o_mq o_qq o_ml o_alphas String.append String.eqb Ascii.eqb Bool.eqb fst snd] in H. cbv zeta in H. rewrite !cmod_sq in H.
    apply Rmult_integral in H. destruct H as [H | H]; [exact (Rmult_integral_contrapositive_currified _ _ pre_ne lam_ne H)|].
    cbn [fst snd Re Im RtoC Ci Cplus Cminus Copp Cmult Cconj] in H. lra.
  - intros d wc M (Z & E). unfold Pll_br, spin0_rate, getS_P. cbn [ll_of s3]. cbv zeta. cbn [fst snd].
    rewrite !(Z ("CSRR_" +++ _)%string) by reflexivity. rewrite !(Z ("CSRL_" +++ _)%string) by reflexivity.
    change ("mu" +++ "e")%string with "mue"%string.
    change ("CVLR_" +++ "mue" +++ o_qq d)%string with ("CVLR_mue" +++ o_qq d)%string. change ("CVLL_" +++ "mue" +++ o_qq d)%string with ("CVLL_mue" +++ o_qq d)%string.
    change ("CVRR_" +++ "mue" +++ o_qq d)%string with ("CVRR_mue" +++ o_qq d)%string. rewrite E, M.
    generalize (wc ("CVRR_mue" +++ o_qq d)%string - wc ("CVLR_" +++ o_qq d +++ "mue")%string)%C. intros [x x']. rewrite !cmod_sq. cbn [fst snd Re Im RtoC Ci Cplus Cminus Copp Cmult Cconj]. ring.
Qed.
Print Assumptions C190_refuted.

(** C191: V -> l l' gamma. The kinematic functions vanish at threshold (y = 1, the heavier lepton as heavy as the meson), are continuous at y = 0, and those that multiply
    squares of couplings are not negative *)
Theorem C191_threshold : forall F, In F [F_A; F_S; Ftilde_S; Fhat_S; F_PA; Ftilde_PA] -> F 1 = 0.
Proof.
  intros F H. assert (n1 : 1 <> 0) by lra.
  destruct H as [<- | [<- | [<- | [<- | [<- | [<- | []]]]]]].
  - rewrite F_A_is by exact n1. unfold fA. rewrite pow1, ln_1. field.
  - rewrite F_S_is by exact n1. unfold fS. rewrite pow1, ln_1. field.
  - rewrite Ftilde_S_is by exact n1. unfold fSt. rewrite pow1, ln_1. field.
  - rewrite Fhat_S_is by exact n1. unfold fSh. rewrite pow1, ln_1. field.
  - unfold F_PA. destruct Req_EM_T as [e | _]; [lra|]. cbv zeta. rewrite pow1, ln_1. field.
  - unfold Ftilde_PA. destruct Req_EM_T as [e | _]; [lra|]. cbv zeta. rewrite pow1, ln_1. field.
Qed.
Print Assumptions C191_threshold.
Theorem C191_positive : forall F y, In F [F_A; F_S; Ftilde_S; Fhat_S] -> 0 <= y <= 1 -> 0 <= F y.
Proof.
  intros F y H hy. destruct (Req_dec y 0) as [-> | N].
  - destruct H as [<- | [<- | [<- | [<- | []]]]]; [unfold F_A | unfold F_S | unfold Ftilde_S | unfold Fhat_S]; cbv zeta; (destruct Req_EM_T as [_ | e]; [lra | exfalso; apply e; ring]).
  - assert (hm : 0 < y ^ 2 <= 1) by (split; [apply pow_lt; lra | nra]).
    destruct H as [<- | [<- | [<- | [<- | []]]]]; [rewrite F_A_is by exact N | rewrite F_S_is by exact N | rewrite Ftilde_S_is by exact N | rewrite Fhat_S_is by exact N].
    + generalize (fA_pos _ hm). lra.
    + generalize (fS_pos _ hm). lra.
    + generalize (fSt_pos _ hm). lra.
    + generalize (fSh_pos _ hm). lra.
Qed.
Print Assumptions C191_positive.
Theorem C191_massless : forall F y, In F [F_A; F_S; Ftilde_S; Fhat_S; Fhat_P; F_PA; Ftilde_PA] -> 0 <= y <= 1 -> Rabs (F y - F 0) <= 10 * y.
Proof.
  intros F y H hy. destruct (Req_dec y 0) as [-> | N]; [replace (F 0 - F 0) with 0 by ring; rewrite Rabs_R0; lra|].
  assert (hm : 0 < y ^ 2 <= 1) by (split; [apply pow_lt; lra | nra]).
  pose proof (mln_bound _ hm) as B. rewrite sqrt_pow2 in B by lra. apply Rabs_le_between in B.
  assert (hmy : y ^ 2 <= y) by nra. set (m := y ^ 2) in *.
  assert (P : forall k, m ^ S k <= m) by (intro k; induction k as [|k IH]; [lra | change (m ^ S (S k)) with (m * m ^ S k); assert (0 <= m ^ S k) by (apply pow_le; lra); nra]).
  assert (Q : forall k, 0 <= m ^ k) by (intro k; apply pow_le; lra).
  pose proof (P 1%nat) as p2. pose proof (P 2%nat) as p3. pose proof (P 3%nat) as p4. pose proof (P 4%nat) as p5.
  pose proof (Q 2%nat) as q2. pose proof (Q 3%nat) as q3. pose proof (Q 4%nat) as q4. pose proof (Q 5%nat) as q5.
  set (t := m * ln m) in *.
  assert (mt : - y <= m * t <= y) by nra.
  assert (mmt : - y <= m * (m * t) <= y) by nra.
  destruct H as [<- | [<- | [<- | [<- | [<- | [<- | [<- | []]]]]]]].
  - replace (F_A 0) with (2 / 9) by (unfold F_A; cbv zeta; destruct Req_EM_T as [_ | e]; [reflexivity | exfalso; apply e; ring]).
    rewrite F_A_is by exact N. fold m. unfold fA. replace (6 * (m - 6) * m ^ 2 * ln m) with (6 * (m * (m * t)) - 36 * (m * t)) by (unfold t; ring). apply Rabs_le. split; lra.
  - replace (F_S 0) with (1 / 12) by (unfold F_S; cbv zeta; destruct Req_EM_T as [_ | e]; [reflexivity | exfalso; apply e; ring]).
    rewrite F_S_is by exact N. fold m. unfold fS. replace (3 * m ^ 2 * (1 - 2 * ln m)) with (3 * m ^ 2 - 6 * (m * t)) by (unfold t; ring). apply Rabs_le. split; lra.
  - replace (Ftilde_S 0) with (1 / 40) by (unfold Ftilde_S; cbv zeta; destruct Req_EM_T as [_ | e]; [reflexivity | exfalso; apply e; ring]).
    rewrite Ftilde_S_is by exact N. fold m. unfold fSt. replace (60 * m ^ 2 * ln m) with (60 * (m * t)) by (unfold t; ring). apply Rabs_le. split; lra.
  - replace (Fhat_S 0) with (1 / 12) by (unfold Fhat_S; cbv zeta; destruct Req_EM_T as [_ | e]; [reflexivity | exfalso; apply e; ring]).
    rewrite Fhat_S_is by exact N. fold m. unfold fSh. replace (m * (- 8 + 8 * m ^ 2 - m ^ 3 - 12 * m * ln m)) with (- 8 * m + 8 * m ^ 3 - m ^ 4 - 12 * (m * t)) by (unfold t; ring). apply Rabs_le. split; lra.
  - replace (Fhat_P 0) with 0 by (unfold Fhat_P; cbv zeta; destruct Req_EM_T as [_ | e]; [reflexivity | exfalso; apply e; ring]).
    rewrite Fhat_P_is by exact N. fold m. unfold fSh. replace (m * (- 8 + 8 * m ^ 2 - m ^ 3 - 12 * m * ln m)) with (- 8 * m + 8 * m ^ 3 - m ^ 4 - 12 * (m * t)) by (unfold t; ring). apply Rabs_le. split; lra.
  - replace (F_PA 0) with 0 by (unfold F_PA; destruct Req_EM_T as [_ | e]; [reflexivity | exfalso; apply e; ring]).
    unfold F_PA. destruct Req_EM_T as [e | _]; [contradiction|]. cbv zeta. fold m.
    replace (y * (1 + 4 * m - 5 * m ^ 2 + 2 * m * (2 + m) * ln m) / 2 - 0) with (y * ((1 + 4 * m - 5 * m ^ 2 + 4 * t + 2 * (m * t)) / 2)) by (unfold t; field).
    rewrite Rabs_mult, (Rabs_right y) by lra. rewrite Rmult_comm. apply Rmult_le_compat_r; [lra|]. apply Rabs_le. split; lra.
  - replace (Ftilde_PA 0) with 0 by (unfold Ftilde_PA; destruct Req_EM_T as [_ | e]; [reflexivity | exfalso; apply e; ring]).
    unfold Ftilde_PA. destruct Req_EM_T as [e | _]; [contradiction|]. cbv zeta. fold m.
    replace (y * (1 + 9 * m - 9 * m ^ 2 - m ^ 3 + 6 * m * (1 + m) * ln m) / 3 - 0) with (y * ((1 + 9 * m - 9 * m ^ 2 - m ^ 3 + 6 * t + 6 * (m * t)) / 3)) by (unfold t; field).
    rewrite Rabs_mult, (Rabs_right y) by lra. rewrite Rmult_comm. apply Rmult_le_compat_r; [lra|]. apply Rabs_le. split; lra.
Qed.
Print Assumptions C191_massless.

(** both charge combinations have the same branching ratio, if the photon couplings follow the leptons (and both fail for equal masses) *)
Theorem C191_charges : forall d wc cij cji tij tji l1 l2, l1 <> l2 ->
  Vllgamma_br d wc cij cji tij tji l1 l2 = Vllgamma_br d wc cji cij tji tij l2 l1.
Proof.
  intros d wc cij cji tij tji l1 l2 N.
  assert (E : exists a b, ll_of l1 l2 = (a, b) /\ ll_of l2 l1 = (a, b) /\ (lep3_eqb a l2 && lep3_eqb b l1)%bool = negb (lep3_eqb a l1 && lep3_eqb b l2)%bool)
    by (destruct l1, l2; cbn; try (exfalso; apply N; reflexivity); eexists; eexists; repeat split).
  destruct E as (a & b & e1 & e2 & e3).
  unfold Vllgamma_br, getWC_lfv. rewrite e1, e2. cbv zeta. rewrite e3. destruct (lep3_eqb a l1 && lep3_eqb b l2)%bool; cbn [negb ALg ARg SLg SRg PLg PRg StLg StRg PtLg PtRg];
  generalize (wc (String.append "CVLR_" (String.append (o_qq d) (String.append (s3 a) (s3 b)))) - wc (String.append "CVRR_" (String.append (String.append (s3 a) (s3 b)) (o_qq d))))%C;
  generalize (wc (String.append "CVLL_" (String.append (String.append (s3 a) (s3 b)) (o_qq d))) - wc (String.append "CVLR_" (String.append (String.append (s3 a) (s3 b)) (o_qq d))))%C;
  intros AL AR;
  generalize (wc (String.append "CSRR_" (String.append (s3 l1) (String.append (s3 l2) (o_qq d)))));
  generalize (wc (String.append "CSRL_" (String.append (s3 l1) (String.append (s3 l2) (o_qq d)))));
  generalize (wc (String.append "CSRR_" (String.append (s3 l2) (String.append (s3 l1) (o_qq d)))));
  generalize (wc (String.append "CSRL_" (String.append (s3 l2) (String.append (s3 l1) (o_qq d)))));
  intros c1 c2 c3 c4; destruct AL, AR, c1, c2, c3, c4, cij, cji, tij, tji;
  (destruct (Rlt_dec (o_ml d l1) (o_ml d l2)) as [h | h]; destruct (Rlt_dec (o_ml d l2) (o_ml d l1)) as [h' | h']; cbn [bind]; [exfalso; lra | | | reflexivity]);
  rewrite !cmod_sq; cbn [fst snd Re Im RtoC Ci Cplus Cminus Copp Cmult Cconj]; f_equal; f_equal; ring.
Qed.
Print Assumptions C191_charges.
(** equal masses: no result *)
Theorem C191_equal_mass : forall d wc cij cji tij tji l1 l2, o_ml d l1 = o_ml d l2 -> Vllgamma_br d wc cij cji tij tji l1 l2 = Err UnboundLocalError.
Proof.
  intros d wc cij cji tij tji l1 l2 E. unfold Vllgamma_br. rewrite E. cbv zeta. destruct (Rlt_dec (o_ml d l2) (o_ml d l2)) as [h | _]; [exfalso; lra | reflexivity].
Qed.
Print Assumptions C191_equal_mass.

(** C192: a branching ratio is not negative. The interference of the pseudoscalar and the photon operator is weighted with a function that misses the term 1/12 of its scalar analogue *)
Definition bottom : onium := Onium 1 1 (1 / 2) 1 0 1 1 "bb" (fun l => match l with Le => 0 | Lmu => 1 / 10 | Ltau => 1 / 2 end) (1 / 137) 1 1.
Definition wc_ps : string -> C := fun n => if String.eqb n "CSRR_etaubb" then RtoC (1 / 2) else if String.eqb n "CSRL_etaubb" then RtoC (- (1 / 2)) else RtoC 0.
Lemma ln2_bound : ln 2 <= 3 / 4.
Proof.
  rewrite <- (ln_exp (3 / 4)). destruct (Rle_lt_or_eq_dec 2 (exp (3 / 4))) as [h | ->]; [| left; apply ln_increasing; lra | right; reflexivity].
  assert (E : exp (3 / 4) = exp (3 / 32) ^ 8). { cbn [pow]. rewrite Rmult_1_r, <- !exp_plus. f_equal. field. }
  rewrite E. apply Rle_trans with ((1 + 3 / 32) ^ 8); [lra|]. apply pow_incr. split; [lra|]. left. apply exp_ineq1. lra.
Qed.
Theorem C192_refuted : Fhat_P 1 = - (1 / 12)
  /\ ~ (forall d wc cij cji tij tji l1 l2 x, open d l1 l2 -> Vllgamma_br d wc cij cji tij tji l1 l2 = Ok x -> 0 <= x).
Proof.
  split.
  { unfold Fhat_P. cbv zeta. destruct Req_EM_T as [e | _]; [lra|]. rewrite pow1, ln_1. field. }
  intro H. assert (O : open bottom Le Ltau) by (unfold open, bottom; cbn; lra).
  assert (E : exists x, Vllgamma_br bottom wc_ps (RtoC 0) (RtoC 0) (0, - (1 / 2)) (RtoC 0) Le Ltau = Ok x /\ x < 0).
  { unfold Vllgamma_br, getWC_lfv, bottom, wc_ps. cbn [ll_of s3 lep3_eqb andb o_m o_tau o_f o_qq o_ml o_alpha o_Q String.append String.eqb Ascii.eqb Bool.eqb]. cbv zeta.
    cbn [ALg ARg SLg SRg PLg PRg StLg StRg PtLg PtRg]. destruct (Rlt_dec 0 (1 / 2)) as [_ | h]; [cbn [bind]|exfalso; lra]. eexists. split; [reflexivity|].
    replace (1 / 2 / 1) with (1 / 2) by field. rewrite !cmod_sq. cbn [fst snd Re Im RtoC Ci Cplus Cminus Copp Cmult Cconj].
    assert (n : 1 / 2 <> 0) by lra. unfold F_S, Ftilde_S, Fhat_P. cbv zeta. destruct (Req_EM_T ((1 / 2) ^ 2) 0) as [e | _]; [exfalso; lra|].
    assert (LN : ln ((1 / 2) ^ 2) = - 2 * ln 2). { replace ((1 / 2) ^ 2) with (/ (2 * 2)) by field. rewrite ln_Rinv, ln_mult by lra. ring. }
    rewrite LN. pose proof ln2_bound as B. pose proof PI_RGT_0 as P. set (L := ln 2) in *.
    assert (Q : 0 < 1 / 137 * 1 ^ 2 * 1 * 1 / (192 * PI ^ 2)) by (apply Rdiv_lt_0_compat; [lra | apply Rmult_lt_0_compat; [lra | apply pow_lt; exact P]]).
    apply Rlt_le_trans with (1 / 137 * 1 ^ 2 * 1 * 1 / (192 * PI ^ 2) * 0); [|lra]. apply Rmult_lt_compat_l; [exact Q|]. lra. }
  destruct E as (x & E & hx). specialize (H _ _ _ _ _ _ _ _ _ O E). lra.
Qed.
Print Assumptions C192_refuted.
(** the hypotheses of C190 are satisfied by coefficients that are not all zero *)
Example only_current_meets : exists wc, only_current eta wc 1 /\ wc "CVRR_muecc"%string <> RtoC 0.
Proof.
  exists (fun n => if String.eqb n "CVRR_muecc" then RtoC 1 else if String.eqb n "CVLR_muecc" then RtoC 1 else RtoC 0). split.
  - split; [|cbn; apply injective_projections; cbn; ring].
    intros n Hn. destruct (String.eqb_spec n "CVRR_muecc") as [-> | _]; [discriminate|]. destruct (String.eqb_spec n "CVLR_muecc") as [-> | _]; [discriminate | reflexivity].
  - cbn. intro e. apply (f_equal fst) in e. cbn in e. lra.
Qed.

(** ** C187: which coefficients couple to which chirality, and their normalisation.
    Flavour violation with massless leptons and vector coefficients only: the left-handed leptons couple to CVLL + CVLR(leptons, quarks), the right-handed ones to CVRR + CVLR(quarks, leptons) *)
Theorem C187_lfv_vector : forall d wc l1 l2 ll, In (l1, l2, ll) [(Lmu, Le, "mue"%string); (Le, Lmu, "mue"%string); (Ltau, Le, "taue"%string); (Le, Ltau, "taue"%string); (Ltau, Lmu, "taumu"%string); (Lmu, Ltau, "taumu"%string)] ->
  o_ml d l1 = 0 -> o_ml d l2 = 0 -> (forall n, String.prefix "CV" n = false -> wc n = RtoC 0) ->
  Vll_br d wc l1 l2 = o_tau d * o_m d / (96 * PI) * (o_f d * o_m d) ^ 2 *
    (Cmod (wc ("CVLL_" +++ ll +++ o_qq d)%string + wc ("CVLR_" +++ ll +++ o_qq d)%string)%C ^ 2 + Cmod (wc ("CVRR_" +++ ll +++ o_qq d)%string + wc ("CVLR_" +++ o_qq d +++ ll)%string)%C ^ 2).
Proof.
  intros d wc l1 l2 ll H h1 h2 Z. unfold Vll_br. rewrite h1, h2. unfold Rdiv. rewrite Rmult_0_l, Vll_rate_is.
  assert (L : sqrt (lambda_K 1 (0 ^ 2) (0 ^ 2)) = 1). { replace (lambda_K 1 (0 ^ 2) (0 ^ 2)) with 1; [apply sqrt_1|]. unfold lambda_K. cbv zeta. destruct Rlt_dec as [X | _]; [exfalso; lra | ring]. }
  rewrite L. pose proof PI_RGT_0.
  assert (K : forall V W, o_tau d * o_m d * / (16 * PI) * 1 * amp2 0 0 (RtoC (o_f d * o_m d) * V)%C (RtoC (o_f d * o_m d) * W)%C (RtoC 0) (RtoC 0) = o_tau d * o_m d * / (96 * PI) * (o_f d * o_m d) ^ 2 * (Cmod V ^ 2 + Cmod W ^ 2)).
  { intros [v v'] [w w']. unfold amp2. rewrite !cmod_sq. cbn [fst snd Re Im RtoC Cplus Cmult Cconj]. field. lra. }
  assert (K' : forall V W, amp2 0 0 (Cconj V) (Cconj W) (RtoC 0) (RtoC 0) = amp2 0 0 V W (RtoC 0) (RtoC 0)).
  { intros [v v'] [w w']. unfold amp2. rewrite !cmod_sq. cbn [fst snd Re Im RtoC Cplus Cmult Cconj]. field. }
  assert (T : forall a b, (RtoC a * RtoC 0 - RtoC b * RtoC 0)%C = RtoC 0) by (intros; apply injective_projections; cbn [fst snd RtoC Cplus Cminus Copp Cmult]; ring).
  assert (T' : Cconj (RtoC 0) = RtoC 0) by (apply injective_projections; cbn [fst snd RtoC Cconj]; ring).
  cbn [In] in H. repeat (destruct H as [H | H]; [injection H as <- <- <-; unfold getVT_lfv; cbn [lep3_eqb ll_of andb s3]; cbv zeta;
    rewrite ?(Z ("CTRR_" ++ _)%string), ?(Z ("Cgamma_" ++ _)%string) by reflexivity; rewrite ?T, ?T'; cbn [VLc VRc TLc TRc]; rewrite ?K', K; reflexivity|]). destruct H.
Qed.
Print Assumptions C187_lfv_vector.
(** the same leptons: photon exchange and coefficients in the normalisation of the weak hamiltonian, 4 G_F / sqrt 2 (massless leptons) *)
Theorem C187_lfc_vector : forall d wc l, let ll := (s3 l +++ s3 l)%string in let n := RtoC (4 * o_GF d / sqrt 2) in let ph := RtoC (8 * PI * o_alpha d * o_Q d / o_m d ^ 2) in
  o_m d <> 0 -> o_ml d l = 0 -> (forall n, String.prefix "CV" n = false -> wc n = RtoC 0) ->
  Vll_br d wc l l = o_tau d * o_m d / (96 * PI) * (o_f d * o_m d) ^ 2 *
    (Cmod (n * (wc ("CVLL_" +++ ll +++ o_qq d)%string + wc ("CVLR_" +++ ll +++ o_qq d)%string) - ph)%C ^ 2 + Cmod (n * (wc ("CVRR_" +++ ll +++ o_qq d)%string + wc ("CVLR_" +++ o_qq d +++ ll)%string) - ph)%C ^ 2).
Proof.
  intros d wc l ll n ph hm h1 Z. unfold Vll_br. rewrite h1. unfold Rdiv at 1 2. rewrite Rmult_0_l, Vll_rate_is.
  assert (L : sqrt (lambda_K 1 (0 ^ 2) (0 ^ 2)) = 1). { replace (lambda_K 1 (0 ^ 2) (0 ^ 2)) with 1; [apply sqrt_1|]. unfold lambda_K. cbv zeta. destruct Rlt_dec as [X | _]; [exfalso; lra | ring]. }
  rewrite L. pose proof PI_RGT_0. assert (E : lep3_eqb l l = true) by (destruct l; reflexivity). rewrite E.
  unfold getVT_lfc. cbv zeta. fold ll. rewrite !(Z ("CTRR_" ++ _)%string), !(Z ("C7_" ++ _)%string) by reflexivity. cbn [VLc VRc TLc TRc].
  unfold n, ph. generalize (wc ("CVLL_" +++ ll +++ o_qq d)%string) (wc ("CVLR_" +++ ll +++ o_qq d)%string) (wc ("CVRR_" +++ ll +++ o_qq d)%string) (wc ("CVLR_" +++ o_qq d +++ ll)%string).
  intros [a a'] [b b'] [c c'] [e e']. generalize (4 * o_GF d / sqrt 2). intros k. unfold amp2. rewrite !cmod_sq. cbn [fst snd Re Im RtoC Cplus Cminus Copp Cmult Cconj]. field. split; [exact hm | lra].
Qed.
Print Assumptions C187_lfc_vector.
(** tensor coefficient alone (a meson whose quarks have no charge): the magnetic (real) part with 1 + 8 y^2, the electric (imaginary) part with 1 - 4 y^2, y = m_l / m *)
Theorem C187_lfc_tensor : forall d wc l, let y := o_ml d l / o_m d in let t := wc ("CTRR_" +++ (s3 l +++ s3 l) +++ o_qq d)%string in
  0 < o_m d -> 0 <= o_ml d l -> 2 * o_ml d l <= o_m d -> o_Q d = 0 -> (forall n, String.prefix "CV" n = true -> wc n = RtoC 0) ->
  Vll_br d wc l l = o_tau d * o_m d / (6 * PI) * sqrt (1 - 4 * y ^ 2) * (4 * o_GF d / sqrt 2 * o_fT d * o_m d) ^ 2 * ((1 + 8 * y ^ 2) * Re t ^ 2 + (1 - 4 * y ^ 2) * Im t ^ 2).
Proof.
  intros d wc l y t hm hl h hq Z. assert (E : lep3_eqb l l = true) by (destruct l; reflexivity). unfold Vll_br. rewrite E, Vll_rate_is. fold y.
  assert (hy : 0 <= y <= 1 / 2). { unfold y. split; [apply Rdiv_le_0_compat; lra | apply Rle_div_l; lra]. }
  assert (L : lambda_K 1 (y ^ 2) (y ^ 2) = 1 - 4 * y ^ 2). { unfold lambda_K. cbv zeta. destruct Rlt_dec as [X | _]; [exfalso; nra | ring]. }
  rewrite L. pose proof PI_RGT_0. unfold getVT_lfc. cbv zeta. fold t. rewrite !(Z ("CVLL_" ++ _)%string), !(Z ("CVLR_" ++ _)%string), !(Z ("CVRR_" ++ _)%string) by reflexivity. rewrite hq. cbn [VLc VRc TLc TRc].
  generalize (wc ("C7_" ++ s3 l ++ s3 l)%string) (sqrt (1 - 4 * y ^ 2)) (4 * o_GF d / sqrt 2) (sqrt (4 * PI * o_alpha d)). intros [c c'] s k ee. generalize (k * ee / (16 * PI ^ 2) * o_ml d l). intros kd.
  destruct t as [t t']. clearbody y. unfold amp2. rewrite !cmod_sq. cbn [fst snd Re Im RtoC Cplus Cminus Copp Cmult Cconj]. field. split; lra.
Qed.
Print Assumptions C187_lfc_tensor.
(** C188: scalar mesons and equal leptons: the scalar (real) part of the coupling with 1 - 4 y^2 (P wave), the pseudoscalar (imaginary) part with 1 (S wave); the gluonic operator adds to the scalar part *)
Theorem C188_waves : forall d wc (g : R) l, let y := o_ml d l / o_m d in
  let t := (RtoC (o_m d * o_f d / 2) * (wc ("CSRR_" +++ (s3 l +++ s3 l) +++ o_qq d)%string + wc ("CSRL_" +++ (s3 l +++ s3 l) +++ o_qq d)%string) - RtoC (4 * PI * o_a d / o_alphas d * g))%C in
  0 < o_m d -> 0 <= o_ml d l -> 2 * o_ml d l <= o_m d -> o_alphas d <> 0 ->
  Sll_br d wc (RtoC g) (RtoC g) l l = o_tau d * o_m d / (8 * PI) * sqrt (1 - 4 * y ^ 2) * ((1 - 4 * y ^ 2) * Re t ^ 2 + Im t ^ 2).
Proof.
  intros d wc g l y t hm hl h ha. unfold Sll_br, spin0_rate. cbv zeta. fold y.
  assert (hy : 0 <= y <= 1 / 2). { unfold y. split; [apply Rdiv_le_0_compat; lra | apply Rle_div_l; lra]. }
  assert (L : lambda_K 1 (y ^ 2) (y ^ 2) = 1 - 4 * y ^ 2). { unfold lambda_K. cbv zeta. destruct Rlt_dec as [X | _]; [exfalso; nra | ring]. }
  rewrite L. pose proof PI_RGT_0. unfold t, getS_S. cbv zeta. cbn [fst snd].
  replace ((s3 l +++ s3 l) +++ o_qq d)%string with (s3 l +++ s3 l +++ o_qq d)%string by (destruct l; reflexivity).
  generalize (wc ("CSRR_" +++ s3 l +++ s3 l +++ o_qq d)%string) (wc ("CSRL_" +++ s3 l +++ s3 l +++ o_qq d)%string). intros [a a'] [b b'].
  rewrite !(half (RtoC (o_m d) * (RtoC (o_f d) * - Ci))%C), !cmod_sq. generalize (sqrt (1 - 4 * y ^ 2)). intros s. clearbody y.
  cbn [fst snd Re Im RtoC Ci Cplus Cminus Copp Cmult Cconj]. field. split; lra.
Qed.
Print Assumptions C188_waves.
Example C187_tensor_meets : let d := Onium 3 1 1 1 1 0 1 "cc" (fun _ => 1 / 10) (1 / 137) 1 1 in 0 < o_m d /\ 0 <= o_ml d Lmu /\ 2 * o_ml d Lmu <= o_m d /\ o_Q d = 0 /\ o_alphas d <> 0.
Proof. cbn. repeat split; lra. Qed.
