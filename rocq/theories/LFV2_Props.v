(** * Theorems about tau -> V l and tau -> P l (C171) *)
From Coq Require Import Reals List String Lra Lia.
From Coquelicot Require Import Coquelicot.
From Verif Require Import Base Basics_Model Basics_Proofs Decays_Model Leptonic_Model Leptonic_Spec Leptonic_Proofs Leptonic_Props LFV_Model LFV_Spec LFV_Proofs.
Import ListNotations.
Local Open Scope R_scope.

(** sum over the quarks in a meson of a coefficient that depends on the quark *)
Definition over (V : vec) (f : string -> C) : C := csum (map (fun qw => RtoC (snd qw) * f (fst qw))%C (content V)).
Definition charge_of (V : vec) : R := fold_right Rplus 0 (map (fun qw => snd qw * Qq (fst qw)) (content V)).
Section VL.
  Variables (w : string -> C) (l : string).
  Definition left_v (q : string) : C := (w ("CVLL_tau" ++ l ++ q ++ q)%string + w ("CVLR_tau" ++ l ++ q ++ q)%string)%C.
  Definition right_v (q : string) : C := (w ("CVRR_tau" ++ l ++ q ++ q)%string + w ("CVLR_" ++ q ++ q ++ "tau" ++ l)%string)%C.
  (** axial couplings: quark right minus left for a left-handed, right-handed lepton; pseudoscalar densities *)
  Definition left_a (q : string) : C := (w ("CVLR_tau" ++ l ++ q ++ q)%string - w ("CVLL_tau" ++ l ++ q ++ q)%string)%C.
  Definition right_a (q : string) : C := (w ("CVRR_tau" ++ l ++ q ++ q)%string - w ("CVLR_" ++ q ++ q ++ "tau" ++ l)%string)%C.
  Definition right_p (q : string) : C := (w ("CSRR_tau" ++ l ++ q ++ q)%string - w ("CSRL_tau" ++ l ++ q ++ q)%string)%C.
  Definition left_p (q : string) : C := Cconj (w ("CSRL_" ++ l ++ "tau" ++ q ++ q)%string - w ("CSRR_" ++ l ++ "tau" ++ q ++ q)%string)%C.
End VL.
Definition sector_of (l : lep3) : string := match l with Lmu => "mutau" | _ => "taue" end%string.

Lemma sq2 : sqrt 2 <> 0. Proof. assert (0 < sqrt 2) by (apply sqrt_lt_R0; lra). lra. Qed.
Lemma sv_ext M mv mf gL gR a b c d gL' gR' e f : gL = gL' -> gR = gR' -> (a - b)%C = e -> (c + d)%C = f -> squared_v M mv mf gL gR a b c d = squared_v M mv mf gL' gR' e (RtoC 0) f (RtoC 0).
Proof. intros -> -> <- <-. unfold squared_v. cbv zeta. rewrite Cplus_0_r. replace (a - b - RtoC 0)%C with (a - b)%C by ring. reflexivity. Qed.
(** exactly e and mu are possible; the rate is the lifetime times that of two-body decays with the couplings of the meson: vector currents with the decay constant,
    tensor currents with the transverse decay constant, and the photon dipole through the electric charges of the quarks in the meson *)
Theorem C171_vector : forall d g V,
  (forall l, l = Le \/ l = Lmu -> 0 < v_mV d -> 0 <= v_ml d l -> v_ml d l + v_mV d <= v_mtau d ->
     let w := g (sector_of l) in let n := ln_ l in let dip := RtoC (- 2 * v_fV d * sqrt (4 * PI * v_alpha d) / v_mV d * charge_of V) in
     br_tauvl d g V l = Ok (v_tau d * (phase_space (v_mtau d) (v_ml d l) (v_mV d) * squared_v (v_mtau d) (v_mV d) (v_ml d l)
       (RtoC (v_mV d * v_fV d / 2) * over V (left_v w n))%C (RtoC (v_mV d * v_fV d / 2) * over V (right_v w n))%C
       (RtoC (2 * v_fT d) * over V (fun q => Cconj (w ("CTRR_" ++ n ++ "tau" ++ q ++ q)%string)) + dip * Cconj (w ("Cgamma_" ++ n ++ "tau")%string))%C (RtoC 0)
       (RtoC (2 * v_fT d) * over V (fun q => w ("CTRR_tau" ++ n ++ q ++ q)%string) + dip * w ("Cgamma_tau" ++ n)%string)%C (RtoC 0))))
  /\ br_tauvl d g V Ltau = Err KeyError.
Proof.
  intros d g V. split; [|reflexivity]. intros l Hl Hv Hm Hs w n dip. pose proof sq2 as S2. assert (P2 : 0 < sqrt 2) by (apply sqrt_lt_R0; lra).
  assert (Es : sec_tau l = Ok (sector_of l)) by (destruct Hl as [-> | ->]; reflexivity).
  unfold br_tauvl. rewrite Es. cbn [bind]. fold w. fold n.
  destruct V; cbn [get_wcs combine map nth fst snd].
  - refine (f_equal Ok (f_equal (Rmult _) _)). rewrite Fvf_is by lra. refine (f_equal (Rmult _) _). apply sv_ext; unfold over, left_v, right_v, dip, charge_of; cbn [content map csum fold_right fst snd];
      unfold Qq; cbn [String.eqb Ascii.eqb Bool.eqb];
      rewrite ?(cdiv_r _ (sqrt 2)) by exact S2; apply injective_projections; cbn [fst snd Cplus Cminus Copp Cmult Cconj RtoC]; field; repeat split; lra.
  - refine (f_equal Ok (f_equal (Rmult _) _)). rewrite Fvf_is by lra. refine (f_equal (Rmult _) _). apply sv_ext; unfold over, left_v, right_v, dip, charge_of; cbn [content map csum fold_right fst snd];
      unfold Qq; cbn [String.eqb Ascii.eqb Bool.eqb]; apply injective_projections; cbn [fst snd Cplus Cminus Copp Cmult Cconj RtoC]; field; lra.
Qed.
Print Assumptions C171_vector.

Lemma sv_swap M mv mf gL gR e f : squared_v M mv mf gR gL f (RtoC 0) e (RtoC 0) = squared_v M mv mf gL gR e (RtoC 0) f (RtoC 0).
Proof.
  unfold squared_v. cbv zeta. rewrite !Cplus_0_r. assert (Z : forall z : C, (z - RtoC 0)%C = z) by (intro; ring). rewrite !Z.
  assert (P1 : forall a b, parity_sum 1 a b = parity_sum 1 b a) by (intros; unfold parity_sum; f_equal; ring).
  assert (P2 : forall a b, parity_sum (-1) a b = (RtoC (-1) * parity_sum (-1) b a)%C).
  { intros a b. unfold parity_sum. rewrite !cdiv_r by exact sq2. apply injective_projections; cbn [fst snd Cplus Cmult RtoC]; ring. }
  rewrite (P1 gR gL), (P1 e f). f_equal. f_equal. rewrite (P2 gR gL), (P2 e f). unfold squared_v1.
  replace (RtoC ((M - mf) / mv) * (RtoC (-1) * parity_sum (-1) gL gR) + RtoC mv * (RtoC (-1) * parity_sum (-1) f e))%C with (RtoC (-1) * (RtoC ((M - mf) / mv) * parity_sum (-1) gL gR + RtoC mv * parity_sum (-1) f e))%C by ring.
  replace (RtoC (-1) * parity_sum (-1) gL gR + RtoC (M - mf) * (RtoC (-1) * parity_sum (-1) f e))%C with (RtoC (-1) * (parity_sum (-1) gL gR + RtoC (M - mf) * parity_sum (-1) f e))%C by ring.
  rewrite !Cmod_scale. ring.
Qed.
Lemma ss_swap M ms mf gL gR : squared_s M ms mf gR gL = squared_s M ms mf gL gR.
Proof. rewrite <- !squared_s_is. f_equal. ring. Qed.
Lemma ss_scale M ms mf (z gL gR : C) : squared_s M ms mf (z * gL)%C (z * gR)%C = Cmod z ^ 2 * squared_s M ms mf gL gR.
Proof. rewrite <- !squared_s_is. rewrite !cmod_sq. destruct z, gL, gR. unfold Cmult. cbn [fst snd]. field. Qed.
Lemma ss_0 M ms mf : squared_s M ms mf (RtoC 0) (RtoC 0) = 0.
Proof. rewrite <- squared_s_is. rewrite Cmod_0. unfold RtoC. cbn [fst snd]. field. Qed.
Lemma sv_scale M mv mf t gL gR e f : squared_v M mv mf (RtoC t * gL)%C (RtoC t * gR)%C (RtoC t * e)%C (RtoC 0) (RtoC t * f)%C (RtoC 0) = t ^ 2 * squared_v M mv mf gL gR e (RtoC 0) f (RtoC 0).
Proof.
  unfold squared_v. cbv zeta. rewrite !Cplus_0_r. assert (Z : forall z : C, (z - RtoC 0)%C = z) by (intro; ring). rewrite !Z.
  assert (P : forall p a b, parity_sum p (RtoC t * a)%C (RtoC t * b)%C = (RtoC t * parity_sum p a b)%C).
  { intros p a b. unfold parity_sum. rewrite !cdiv_r by exact sq2. ring. }
  assert (Q : forall s x y, squared_v1 s mv (RtoC t * x)%C (RtoC t * y)%C = t ^ 2 * squared_v1 s mv x y).
  { intros s x y. unfold squared_v1. replace (RtoC (s / mv) * (RtoC t * x) + RtoC mv * (RtoC t * y))%C with (RtoC t * (RtoC (s / mv) * x + RtoC mv * y))%C by ring.
    replace (RtoC t * x + RtoC s * (RtoC t * y))%C with (RtoC t * (x + RtoC s * y))%C by ring. rewrite !Cmod_scale. ring. }
  rewrite !P, !Q. ring.
Qed.
Lemma pull (x a p S S' : R) : S' = x * S -> a * (p * S') = x * (a * (p * S)).
Proof. intros ->. ring. Qed.
Lemma over_ext V f h : (forall q, In q ["u"; "d"; "s"]%string -> f q = h q) -> over V f = over V h.
Proof. intro H. unfold over. destruct V; cbn [content map csum fold_right fst snd]; rewrite !H by (cbn; tauto); reflexivity. Qed.
Lemma over_scale V t f : over V (fun q => RtoC t * f q)%C = (RtoC t * over V f)%C.
Proof. unfold over. destruct V; cbn [content map csum fold_right fst snd]; ring. Qed.
Lemma mirror_q g g' l : l = Le \/ l = Lmu -> mirrored g g' -> forall q, In q ["u"; "d"; "s"]%string ->
  let w := g (sector_of l) in let w' := g' (sector_of l) in let n := ln_ l in
  w' ("CVLL_tau" ++ n ++ q ++ q)%string = w ("CVRR_tau" ++ n ++ q ++ q)%string /\ w' ("CVRR_tau" ++ n ++ q ++ q)%string = w ("CVLL_tau" ++ n ++ q ++ q)%string
  /\ w' ("CVLR_tau" ++ n ++ q ++ q)%string = w ("CVLR_" ++ q ++ q ++ "tau" ++ n)%string /\ w' ("CVLR_" ++ q ++ q ++ "tau" ++ n)%string = w ("CVLR_tau" ++ n ++ q ++ q)%string
  /\ (forall p, In p ["CSRR_"; "CSRL_"; "CTRR_"]%string -> w' (p ++ "tau" ++ n ++ q ++ q)%string = Cconj (w (p ++ n ++ "tau" ++ q ++ q)%string) /\ w' (p ++ n ++ "tau" ++ q ++ q)%string = Cconj (w (p ++ "tau" ++ n ++ q ++ q)%string))
  /\ w' ("Cgamma_tau" ++ n)%string = Cconj (w ("Cgamma_" ++ n ++ "tau")%string) /\ w' ("Cgamma_" ++ n ++ "tau")%string = Cconj (w ("Cgamma_tau" ++ n)%string).
Proof.
  intros Hl Mi q Hq w w' n.
  assert (D : w' ("Cgamma_tau" ++ n)%string = Cconj (w ("Cgamma_" ++ n ++ "tau")%string) /\ w' ("Cgamma_" ++ n ++ "tau")%string = Cconj (w ("Cgamma_tau" ++ n)%string)).
  { destruct Hl as [-> | ->]; [apply (mirror_at g g' "taue"%string "Cgamma_taue"%string "Cgamma_etau"%string true Mi) | apply (mirror_at g g' "mutau"%string "Cgamma_taumu"%string "Cgamma_mutau"%string true Mi)];
      unfold mirror_all; apply in_or_app; left; cbn; tauto. }
  assert (Q : forall a b c, In (sector_of l, a, b, c) (mirror_quarks (sector_of l) "tau" n) -> w' a = (if c : bool then Cconj (w b) else w b) /\ w' b = (if c : bool then Cconj (w a) else w a)).
  { intros a b c I. apply (mirror_at g g' (sector_of l) a b c Mi). unfold mirror_all. apply in_or_app. right. apply in_or_app. destruct Hl as [-> | ->]; [right; apply in_or_app; left | left]; exact I. }
  assert (F : forall r, In r [(sector_of l, "CVLL_" ++ "tau" ++ n ++ (q ++ q), "CVRR_" ++ "tau" ++ n ++ (q ++ q), false); (sector_of l, "CVLR_" ++ "tau" ++ n ++ (q ++ q), "CVLR_" ++ (q ++ q) ++ "tau" ++ n, false);
     (sector_of l, "CSRR_" ++ "tau" ++ n ++ (q ++ q), "CSRR_" ++ n ++ "tau" ++ (q ++ q), true); (sector_of l, "CSRL_" ++ "tau" ++ n ++ (q ++ q), "CSRL_" ++ n ++ "tau" ++ (q ++ q), true);
     (sector_of l, "CTRR_" ++ "tau" ++ n ++ (q ++ q), "CTRR_" ++ n ++ "tau" ++ (q ++ q), true)]%string -> In r (mirror_quarks (sector_of l) "tau" n)).
  { intros r I. unfold mirror_quarks. apply in_flat_map. exists q. split; [exact Hq | exact I]. }
  pose proof (Q _ _ _ (F _ (or_introl eq_refl))) as (A1 & A2). pose proof (Q _ _ _ (F _ (or_intror (or_introl eq_refl)))) as (A3 & A4).
  pose proof (Q _ _ _ (F _ (or_intror (or_intror (or_introl eq_refl))))) as A5. pose proof (Q _ _ _ (F _ (or_intror (or_intror (or_intror (or_introl eq_refl)))))) as A6.
  pose proof (Q _ _ _ (F _ (or_intror (or_intror (or_intror (or_intror (or_introl eq_refl))))))) as A7.
  refine (conj A1 (conj A2 (conj _ (conj _ (conj _ D))))).
  - cbn [In] in Hq. destruct Hq as [<- | [<- | [<- | []]]]; exact A3.
  - cbn [In] in Hq. destruct Hq as [<- | [<- | [<- | []]]]; exact A4.
  - intros p Hp. cbn [In] in Hp. destruct Hp as [<- | [<- | [<- | []]]]; [exact A5 | exact A6 | exact A7].
Qed.
(** never negative, zero without new physics, quadratic in the coefficients, the same for the mirror image; tau -> rho l depends on the difference of the u and d coefficients only *)
Theorem C171_vector_laws : forall d g V l, l = Le \/ l = Lmu -> 0 < v_mV d -> 0 <= v_ml d l -> v_ml d l + v_mV d <= v_mtau d ->
  exists v, br_tauvl d g V l = Ok v /\ (0 <= v_tau d -> 0 <= v)
  /\ br_tauvl d none3 V l = Ok 0 /\ (forall t, br_tauvl d (scaled t g) V l = Ok (t ^ 2 * v)) /\ (forall g', mirrored g g' -> br_tauvl d g' V l = Ok v)
  /\ (V = Vrho -> forall g' : getwc, (forall s p, In p ["CVLL_tau" ++ ln_ l; "CVLR_tau" ++ ln_ l; "CVRR_tau" ++ ln_ l; "CTRR_tau" ++ ln_ l; "CTRR_" ++ ln_ l ++ "tau"]%string ->
         (g' s (p ++ "uu")%string - g' s (p ++ "dd")%string)%C = (g s (p ++ "uu")%string - g s (p ++ "dd")%string)%C) ->
       (forall s, (g' s ("CVLR_uutau" ++ ln_ l)%string - g' s ("CVLR_ddtau" ++ ln_ l)%string)%C = (g s ("CVLR_uutau" ++ ln_ l)%string - g s ("CVLR_ddtau" ++ ln_ l)%string)%C) ->
       (forall s, g' s ("Cgamma_tau" ++ ln_ l)%string = g s ("Cgamma_tau" ++ ln_ l)%string /\ g' s ("Cgamma_" ++ ln_ l ++ "tau")%string = g s ("Cgamma_" ++ ln_ l ++ "tau")%string) -> br_tauvl d g' V l = Ok v).
Proof.
  intros d g V l Hl Hv Hm Hs. pose proof (fun g => proj1 (C171_vector d g V) l Hl Hv Hm Hs) as E. cbv zeta in E. eexists. split; [apply E|].
  assert (T : forall t, br_tauvl d (scaled t g) V l = Ok (t ^ 2 * (v_tau d * (phase_space (v_mtau d) (v_ml d l) (v_mV d) * squared_v (v_mtau d) (v_mV d) (v_ml d l)
       (RtoC (v_mV d * v_fV d / 2) * over V (left_v (g (sector_of l)) (ln_ l)))%C (RtoC (v_mV d * v_fV d / 2) * over V (right_v (g (sector_of l)) (ln_ l)))%C
       (RtoC (2 * v_fT d) * over V (fun q => Cconj (g (sector_of l) ("CTRR_" ++ ln_ l ++ "tau" ++ q ++ q)%string)) + RtoC (- 2 * v_fV d * sqrt (4 * PI * v_alpha d) / v_mV d * charge_of V) * Cconj (g (sector_of l) ("Cgamma_" ++ ln_ l ++ "tau")%string))%C (RtoC 0)
       (RtoC (2 * v_fT d) * over V (fun q => g (sector_of l) ("CTRR_tau" ++ ln_ l ++ q ++ q)%string) + RtoC (- 2 * v_fV d * sqrt (4 * PI * v_alpha d) / v_mV d * charge_of V) * g (sector_of l) ("Cgamma_tau" ++ ln_ l)%string)%C (RtoC 0))))).
  { intro t. rewrite E. refine (f_equal Ok _). apply pull. rewrite <- sv_scale. unfold scaled.
    assert (Cs : forall z, Cconj (RtoC t * z)%C = (RtoC t * Cconj z)%C) by (intros [x y]; apply injective_projections; cbn [fst snd Cmult Cconj RtoC]; ring).
    f_equal.
    - rewrite (over_ext V _ (fun q => RtoC t * left_v (g (sector_of l)) (ln_ l) q)%C); [rewrite over_scale; ring | intros q _; unfold left_v; ring].
    - rewrite (over_ext V _ (fun q => RtoC t * right_v (g (sector_of l)) (ln_ l) q)%C); [rewrite over_scale; ring | intros q _; unfold right_v; ring].
    - rewrite (over_ext V _ (fun q => RtoC t * Cconj (g (sector_of l) ("CTRR_" ++ ln_ l ++ "tau" ++ q ++ q)%string))%C); [rewrite over_scale, Cs; ring | intros q _; apply Cs].
    - rewrite over_scale. ring. }
  refine (conj _ (conj _ (conj T (conj _ _)))).
  - intro H0. apply Rmult_le_pos; [exact H0|]. apply Rmult_le_pos; [apply phase_pos; lra|]. unfold squared_v. cbv zeta. apply Rplus_le_le_0_compat; (apply Rmult_le_pos; [|apply squared_v1_pos]); nra.
  - specialize (T 0). assert (Z : br_tauvl d (scaled 0 g) V l = br_tauvl d none3 V l).
    { unfold br_tauvl. destruct (sec_tau l); [|reflexivity]. unfold get_wcs, scaled, none3. cbn [bind]. rewrite !Cmult_0_l. reflexivity. }
    rewrite <- Z, T. f_equal. ring.
  - intros g' Mi. rewrite E. refine (f_equal Ok (f_equal (Rmult _) (f_equal (Rmult _) _))). rewrite <- sv_swap. pose proof (mirror_q g g' l Hl Mi) as Q. cbv zeta in Q.
    f_equal.
    + f_equal. apply over_ext. intros q Hq. destruct (Q q Hq) as (q1 & q2 & q3 & q4 & _). unfold left_v, right_v. rewrite q2, q4. reflexivity.
    + f_equal. apply over_ext. intros q Hq. destruct (Q q Hq) as (q1 & q2 & q3 & q4 & _). unfold left_v, right_v. rewrite q1, q3. reflexivity.
    + f_equal.
      * f_equal. apply over_ext. intros q Hq. destruct (Q q Hq) as (q1 & q2 & q3 & q4 & q5 & q6 & q7). exact (proj1 (q5 "CTRR_"%string ltac:(cbn; tauto))).
      * destruct (Q "u"%string ltac:(cbn; tauto)) as (_ & _ & _ & _ & _ & -> & _). reflexivity.
    + f_equal.
      * f_equal. apply over_ext. intros q Hq. destruct (Q q Hq) as (q1 & q2 & q3 & q4 & q5 & q6 & q7). pose proof (proj2 (q5 "CTRR_"%string ltac:(cbn; tauto))) as e1. cbn [String.append] in e1 |- *. rewrite e1. apply conj2.
      * destruct (Q "u"%string ltac:(cbn; tauto)) as (_ & _ & _ & _ & _ & _ & ->). rewrite conj2. reflexivity.
  - intros -> g' Hp Hlr Hc. rewrite E. refine (f_equal Ok (f_equal (Rmult _) (f_equal (Rmult _) _))). set (s := sector_of l).
    destruct (Hc s) as (-> & ->). clear E T.
    assert (O : forall f h, (f "u"%string - f "d"%string)%C = (h "u"%string - h "d"%string)%C -> over Vrho f = over Vrho h).
    { intros f h H. unfold over. cbn [content map csum fold_right fst snd]. transitivity (RtoC (1 / sqrt 2) * (f "u"%string - f "d"%string))%C.
      - apply injective_projections; cbn [fst snd Cplus Cminus Copp Cmult RtoC]; ring.
      - rewrite H. apply injective_projections; cbn [fst snd Cplus Cminus Copp Cmult RtoC]; ring. }
    assert (A : forall (n s1 s2 : string), ((s1 ++ n) ++ s2 = s1 ++ n ++ s2)%string) by (intros n s1 s2; induction s1 as [|c s1 IH]; [reflexivity | cbn; rewrite IH; reflexivity]).
    pose proof (Hp s _ (or_introl eq_refl)) as P1. pose proof (Hp s _ (or_intror (or_introl eq_refl))) as P2. pose proof (Hp s _ (or_intror (or_intror (or_introl eq_refl)))) as P3.
    pose proof (Hp s _ (or_intror (or_intror (or_intror (or_introl eq_refl))))) as P4. pose proof (Hp s _ (or_intror (or_intror (or_intror (or_intror (or_introl eq_refl)))))) as P5.
    specialize (Hlr s). destruct Hl as [-> | ->]; cbn [ln_ String.append] in *.
    + f_equal.
      * f_equal. apply O. unfold left_v. cbn [String.append]. transitivity ((g' s "CVLL_taueuu"%string - g' s "CVLL_tauedd"%string) + (g' s "CVLR_taueuu"%string - g' s "CVLR_tauedd"%string))%C; [ring | rewrite P1, P2; ring].
      * f_equal. apply O. unfold right_v. cbn [String.append]. transitivity ((g' s "CVRR_taueuu"%string - g' s "CVRR_tauedd"%string) + (g' s "CVLR_uutaue"%string - g' s "CVLR_ddtaue"%string))%C; [ring | rewrite P3, Hlr; ring].
      * f_equal. f_equal. apply O. cbn [String.append]. transitivity (Cconj (g' s "CTRR_etauuu"%string - g' s "CTRR_etaudd"%string)%C); [apply injective_projections; cbn; ring | rewrite P5; apply injective_projections; cbn; ring].
      * f_equal. f_equal. apply O. cbn [String.append]. exact P4.
    + f_equal.
      * f_equal. apply O. unfold left_v. cbn [String.append]. transitivity ((g' s "CVLL_taumuuu"%string - g' s "CVLL_taumudd"%string) + (g' s "CVLR_taumuuu"%string - g' s "CVLR_taumudd"%string))%C; [ring | rewrite P1, P2; ring].
      * f_equal. apply O. unfold right_v. cbn [String.append]. transitivity ((g' s "CVRR_taumuuu"%string - g' s "CVRR_taumudd"%string) + (g' s "CVLR_uutaumu"%string - g' s "CVLR_ddtaumu"%string))%C; [ring | rewrite P3, Hlr; ring].
      * f_equal. f_equal. apply O. cbn [String.append]. transitivity (Cconj (g' s "CTRR_mutauuu"%string - g' s "CTRR_mutaudd"%string)%C); [apply injective_projections; cbn; ring | rewrite P5; apply injective_projections; cbn; ring].
      * f_equal. f_equal. apply O. cbn [String.append]. exact P4.
Qed.
Print Assumptions C171_vector_laws.
Example C171_vector_meets : let d := Vpar 1 (1 / 137) (177 / 100) (fun _ => 1 / 10) (77 / 100) (2 / 10) (15 / 100) in 0 < v_mV d /\ 0 <= v_ml d Lmu /\ v_ml d Lmu + v_mV d <= v_mtau d.
Proof. cbn. lra. Qed.

(** ** tau -> pi0 l and tau -> K0 l *)
Lemma gfs (M ms mf : R) (gL gR : C) : 0 <= ms -> 0 <= mf -> 0 < M -> mf + ms <= M -> GammaFsf M ms mf gL gR = phase_space M mf ms * squared_s M ms mf gL gR.
Proof. intros a b c e. exact (proj1 (C147_scalar M ms mf gL gR a b c e)). Qed.
Lemma ss_pos (M ms mf : R) (gL gR : C) : 0 <= ms -> 0 <= mf -> 0 < M -> mf + ms <= M -> 0 <= phase_space M mf ms * squared_s M ms mf gL gR.
Proof. intros a b c e. rewrite <- gfs by assumption. exact (proj2 (C147_scalar M ms mf gL gR a b c e)). Qed.
(** the neutral pion has the quark content of the rho: axial currents with the decay constant, multiplied by lepton masses (equation of motion), and pseudoscalar densities *)
Theorem C171_pion : forall d g,
  (forall l, l = Le \/ l = Lmu -> 0 <= q_mP d -> 0 <= q_ml d l -> 0 < q_mtau d -> q_ml d l + q_mP d <= q_mtau d ->
     let w := g (sector_of l) in let n := ln_ l in let f := RtoC (q_fP d / 2) in let fs := RtoC (q_fP d * q_mP d ^ 2 / (q_mu d + q_md d) / 2) in
     let vL := (f * over Vrho (left_a w n))%C in let vR := (f * over Vrho (right_a w n))%C in
     br_taupil d g l = Ok (q_tau d * (phase_space (q_mtau d) (q_ml d l) (q_mP d) * squared_s (q_mtau d) (q_mP d) (q_ml d l)
       (fs * over Vrho (left_p w n) + vR * RtoC (q_mtau d) - vL * RtoC (q_ml d l))%C (fs * over Vrho (right_p w n) + vL * RtoC (q_mtau d) - vR * RtoC (q_ml d l))%C)))
  /\ br_taupil d g Ltau = Err KeyError.
Proof.
  intros d g. split; [|reflexivity]. intros l Hl Hp Hm Ht Hs w n f fs vL vR. pose proof sq2 as S2.
  assert (Es : sec_tau l = Ok (sector_of l)) by (destruct Hl as [-> | ->]; reflexivity).
  unfold br_taupil. rewrite Es. cbn [bind]. fold w. fold n. cbv zeta. refine (f_equal Ok (f_equal (Rmult _) _)). rewrite gfs by assumption. refine (f_equal (Rmult _) _).
  rewrite !(cdiv_r _ (sqrt 2)) by exact S2. rewrite !(cdiv_r _ 2) by lra. set (i2 := / sqrt 2). assert (I2 : 1 / sqrt 2 = i2) by (unfold i2, Rdiv; ring).
  f_equal; unfold vL, vR, f, fs, over, left_a, right_a, left_p, right_p; cbn [content map csum fold_right fst snd]; rewrite I2; unfold Rdiv;
    apply injective_projections; cbn [fst snd Cplus Cminus Copp Cmult Cconj RtoC]; ring.
Qed.
Print Assumptions C171_pion.
(** never negative; zero without new physics and for isospin-symmetric coefficients; quadratic; the same for the mirror image *)
Theorem C171_pion_laws : forall d g l, l = Le \/ l = Lmu -> 0 <= q_mP d -> 0 <= q_ml d l -> 0 < q_mtau d -> q_ml d l + q_mP d <= q_mtau d ->
  exists v, br_taupil d g l = Ok v /\ (0 <= q_tau d -> 0 <= v)
  /\ ((forall s p, g s (p ++ "uu")%string = g s (p ++ "dd")%string) -> (forall s, g s ("CVLR_uutau" ++ ln_ l)%string = g s ("CVLR_ddtau" ++ ln_ l)%string) -> v = 0)
  /\ (forall t, br_taupil d (scaled t g) l = Ok (t ^ 2 * v)) /\ (forall g', mirrored g g' -> br_taupil d g' l = Ok v).
Proof.
  intros d g l Hl Hp Hm Ht Hs. pose proof (fun g => proj1 (C171_pion d g) l Hl Hp Hm Ht Hs) as E. cbv zeta in E. eexists. split; [apply E|].
  refine (conj _ (conj _ (conj _ _))).
  - intro H0. apply Rmult_le_pos; [exact H0 | apply ss_pos; assumption].
  - intros Hud Hlr. clear E.
    assert (O : forall f, f "u"%string = f "d"%string -> over Vrho f = RtoC 0) by (intros f H; unfold over; cbn [content map csum fold_right fst snd]; rewrite H; apply injective_projections; cbn [fst snd Cplus Cmult RtoC]; ring).
    assert (A : forall n s p, g s (p ++ n ++ "u" ++ "u")%string = g s (p ++ n ++ "d" ++ "d")%string).
    { intros n s p. assert (A : forall (s1 n s2 : string), ((s1 ++ n) ++ s2 = s1 ++ n ++ s2)%string) by (intros s1 n' s2; induction s1 as [|c s1 IH]; [reflexivity | cbn; rewrite IH; reflexivity]).
      change ("u" ++ "u")%string with "uu"%string. change ("d" ++ "d")%string with "dd"%string. rewrite <- !A. apply Hud. }
    set (w := g (sector_of l)).
    assert (O1 : over Vrho (left_a w (ln_ l)) = RtoC 0) by (apply O; unfold left_a, w; rewrite (A _ _ "CVLR_tau"%string), (A _ _ "CVLL_tau"%string); reflexivity).
    assert (O2 : over Vrho (right_a w (ln_ l)) = RtoC 0).
    { apply O; unfold right_a, w; rewrite (A _ _ "CVRR_tau"%string). specialize (Hlr (sector_of l)). cbn [String.append] in Hlr |- *. rewrite Hlr. reflexivity. }
    assert (O3 : over Vrho (right_p w (ln_ l)) = RtoC 0) by (apply O; unfold right_p, w; rewrite (A _ _ "CSRR_tau"%string), (A _ _ "CSRL_tau"%string); reflexivity).
    assert (B : forall s p, g s (p ++ ln_ l ++ "tau" ++ "u" ++ "u")%string = g s (p ++ ln_ l ++ "tau" ++ "d" ++ "d")%string) by (intros s p; destruct Hl as [-> | ->]; [exact (A "etau"%string s p) | exact (A "mutau"%string s p)]).
    assert (O4 : over Vrho (left_p w (ln_ l)) = RtoC 0) by (apply O; unfold left_p, w; rewrite (B _ "CSRR_"%string), (B _ "CSRL_"%string); reflexivity).
    rewrite O1, O2, O3, O4. replace (squared_s _ _ _ _ _) with 0; [ring|]. symmetry. refine (eq_trans _ (ss_0 (q_mtau d) (q_mP d) (q_ml d l))). f_equal; ring.
  - intro t. rewrite E. refine (f_equal Ok _). apply pull.
    replace (t ^ 2) with (Cmod (RtoC t) ^ 2) by (rewrite Cmod_R, pow2_abs; reflexivity). rewrite <- ss_scale.
    assert (Cs : forall z, Cconj (RtoC t * z)%C = (RtoC t * Cconj z)%C) by (intros [x y]; apply injective_projections; cbn [fst snd Cmult Cconj RtoC]; ring).
    unfold scaled. set (w := g (sector_of l)). fold w.
    rewrite (over_ext Vrho (left_a (fun n => RtoC t * w n)%C (ln_ l)) (fun q => RtoC t * left_a w (ln_ l) q)%C) by (intros q _; unfold left_a; ring).
    rewrite (over_ext Vrho (right_a (fun n => RtoC t * w n)%C (ln_ l)) (fun q => RtoC t * right_a w (ln_ l) q)%C) by (intros q _; unfold right_a; ring).
    rewrite (over_ext Vrho (right_p (fun n => RtoC t * w n)%C (ln_ l)) (fun q => RtoC t * right_p w (ln_ l) q)%C) by (intros q _; unfold right_p; ring).
    rewrite (over_ext Vrho (left_p (fun n => RtoC t * w n)%C (ln_ l)) (fun q => RtoC t * left_p w (ln_ l) q)%C) by (intros q _; unfold left_p; rewrite <- Cs; f_equal; ring).
    rewrite !over_scale. f_equal; ring.
  - intros g' Mi. rewrite E. refine (f_equal Ok (f_equal (Rmult _) (f_equal (Rmult _) _))). pose proof (mirror_q g g' l Hl Mi) as Q. cbv zeta in Q.
    rewrite <- ss_swap. rewrite <- (Rmult_1_l (squared_s _ _ _ (RtoC _ * over Vrho (left_p (g (sector_of l)) _) + _ - _)%C _)). replace 1 with (Cmod (RtoC (-1)) ^ 2) by (rewrite Cmod_R, pow2_abs; ring). rewrite <- ss_scale.
    rewrite (over_ext Vrho (left_a (g' (sector_of l)) (ln_ l)) (fun q => RtoC (-1) * right_a (g (sector_of l)) (ln_ l) q)%C) by (intros q Hq; destruct (Q q Hq) as (q1 & q2 & q3 & q4 & _); unfold left_a, right_a; rewrite q1, q3; apply injective_projections; cbn [fst snd Cplus Cminus Copp Cmult RtoC]; ring).
    rewrite (over_ext Vrho (right_a (g' (sector_of l)) (ln_ l)) (fun q => RtoC (-1) * left_a (g (sector_of l)) (ln_ l) q)%C) by (intros q Hq; destruct (Q q Hq) as (q1 & q2 & q3 & q4 & _); unfold left_a, right_a; rewrite q2, q4; apply injective_projections; cbn [fst snd Cplus Cminus Copp Cmult RtoC]; ring).
    rewrite (over_ext Vrho (right_p (g' (sector_of l)) (ln_ l)) (fun q => RtoC (-1) * left_p (g (sector_of l)) (ln_ l) q)%C).
    2: { intros q Hq. destruct (Q q Hq) as (q1 & q2 & q3 & q4 & q5 & _). unfold right_p, left_p. destruct (q5 "CSRR_"%string ltac:(cbn; tauto)) as (e1 & _). destruct (q5 "CSRL_"%string ltac:(cbn; tauto)) as (e2 & _).
      cbn [String.append] in e1, e2 |- *. rewrite e1, e2. apply injective_projections; cbn [fst snd Cplus Cminus Copp Cmult Cconj RtoC]; ring. }
    rewrite (over_ext Vrho (left_p (g' (sector_of l)) (ln_ l)) (fun q => RtoC (-1) * right_p (g (sector_of l)) (ln_ l) q)%C).
    2: { intros q Hq. destruct (Q q Hq) as (q1 & q2 & q3 & q4 & q5 & _). unfold right_p, left_p. destruct (q5 "CSRR_"%string ltac:(cbn; tauto)) as (_ & e1). destruct (q5 "CSRL_"%string ltac:(cbn; tauto)) as (_ & e2).
      cbn [String.append] in e1, e2 |- *. rewrite e1, e2. apply injective_projections; cbn [fst snd Cplus Cminus Copp Cmult Cconj RtoC]; ring. }
    rewrite !over_scale. f_equal; ring.
Qed.
Print Assumptions C171_pion_laws.
(** tau -> K0 l: only the differences of the coefficients and their primed counterparts enter (a pseudoscalar couples to axial quark currents); never negative; quadratic;
    the CKM factor enters as its modulus squared *)
Theorem C171_kaon : forall d g l, 0 <= q_mP d -> 0 <= q_ml d l -> 0 < q_mtau d -> q_ml d l + q_mP d <= q_mtau d ->
  let w := g ("sdtau" ++ ln_ l)%string in let c n := (w (n ++ "p_sdtau" ++ ln_ l)%string - w (n ++ "_sdtau" ++ ln_ l)%string)%C in
  let k := q_GF d * q_alpha d * q_fP d / (2 * sqrt 2 * PI) in let b := q_rms d * q_mP d ^ 2 / (q_rmd d + q_rms d) in
  let S := (RtoC b * c "CS"%string - c "C9"%string * RtoC (q_mtau d - q_ml d l))%C in let A := (RtoC b * c "CP"%string + c "C10"%string * RtoC (q_mtau d + q_ml d l))%C in
  q_rmd d + q_rms d <> 0 ->
  br_tauKl d g l = q_tau d * phase_space (q_mtau d) (q_ml d l) (q_mP d) * (k ^ 2 * Cmod (q_xit d) ^ 2) * squared_s (q_mtau d) (q_mP d) (q_ml d l) (S - A)%C (S + A)%C
  /\ (0 <= q_tau d -> 0 <= br_tauKl d g l)
  /\ (forall t, br_tauKl d (scaled t g) l = t ^ 2 * br_tauKl d g l)
  /\ ((forall n, In n ["C9"; "C10"; "CS"; "CP"]%string -> w (n ++ "p_sdtau" ++ ln_ l)%string = w (n ++ "_sdtau" ++ ln_ l)%string) -> br_tauKl d g l = 0).
Proof.
  assert (K : forall d g l, 0 <= q_mP d -> 0 <= q_ml d l -> 0 < q_mtau d -> q_ml d l + q_mP d <= q_mtau d ->
    let w := g ("sdtau" ++ ln_ l)%string in let c n := (w (n ++ "p_sdtau" ++ ln_ l)%string - w (n ++ "_sdtau" ++ ln_ l)%string)%C in
    let k := q_GF d * q_alpha d * q_fP d / (2 * sqrt 2 * PI) in let b := q_rms d * q_mP d ^ 2 / (q_rmd d + q_rms d) in
    let S := (RtoC b * c "CS"%string - c "C9"%string * RtoC (q_mtau d - q_ml d l))%C in let A := (RtoC b * c "CP"%string + c "C10"%string * RtoC (q_mtau d + q_ml d l))%C in
    q_rmd d + q_rms d <> 0 ->
    br_tauKl d g l = q_tau d * phase_space (q_mtau d) (q_ml d l) (q_mP d) * (k ^ 2 * Cmod (q_xit d) ^ 2) * squared_s (q_mtau d) (q_mP d) (q_ml d l) (S - A)%C (S + A)%C).
  { intros d g l Hp Hm Ht Hs w c k b S A Hr. unfold br_tauKl. cbv zeta. fold w. rewrite gfs by assumption. rewrite !Rmult_assoc. do 2 refine (f_equal (Rmult _) _).
    assert (P2 : 0 < sqrt 2) by (apply sqrt_lt_R0; lra). pose proof PI_RGT_0 as hp.
    rewrite <- Rmult_assoc. replace (k ^ 2 * Cmod (q_xit d) ^ 2) with (Cmod (RtoC k * q_xit d)%C ^ 2) by (rewrite Cmod_scale; ring). rewrite <- ss_scale.
    rewrite !(cdiv_r _ 2) by lra. rewrite !(cdiv_r _ (q_rmd d + q_rms d)) by exact Hr.
    f_equal; unfold S, A, c, k, b; cbn [String.append]; apply injective_projections; cbn [fst snd Cplus Cminus Copp Cmult RtoC]; field; repeat split; lra. }
  intros d g l Hp Hm Ht Hs w c k b S A Hr. pose proof (fun g => K d g l Hp Hm Ht Hs) as E. cbv zeta in E. rewrite (E g Hr). refine (conj eq_refl (conj _ (conj _ _))).
  - intro H0. fold w. replace (_ * _ * _ * _) with (q_tau d * (k ^ 2 * Cmod (q_xit d) ^ 2) * (phase_space (q_mtau d) (q_ml d l) (q_mP d) * squared_s (q_mtau d) (q_mP d) (q_ml d l) (S - A)%C (S + A)%C)) by (unfold S, A, c, k, b, w; cbn [String.append]; ring).
    apply Rmult_le_pos; [apply Rmult_le_pos; [exact H0 | apply Rmult_le_pos; apply pow2_ge_0] | apply ss_pos; assumption].
  - intro t. rewrite (E (scaled t g) Hr). match goal with |- ?a * _ = t ^ 2 * (?a * ?x) => replace (t ^ 2 * (a * x)) with (a * (t ^ 2 * x)) by ring end. refine (f_equal (Rmult _) _).
    replace (t ^ 2) with (Cmod (RtoC t) ^ 2) by (rewrite Cmod_R, pow2_abs; reflexivity). rewrite <- ss_scale. unfold scaled. f_equal; ring.
  - intro H. assert (H9 := H "C9"%string ltac:(cbn; tauto)). assert (H10 := H "C10"%string ltac:(cbn; tauto)). assert (HS := H "CS"%string ltac:(cbn; tauto)). assert (HP := H "CP"%string ltac:(cbn; tauto)).
    cbn [String.append] in *. fold w. rewrite H9, H10, HS, HP. replace (squared_s _ _ _ _ _) with 0; [ring|]. symmetry. refine (eq_trans _ (ss_0 (q_mtau d) (q_mP d) (q_ml d l))). f_equal; ring.
Qed.
Print Assumptions C171_kaon.
