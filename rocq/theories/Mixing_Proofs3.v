From Coq Require Import Reals Lra.
From Coquelicot Require Import Complex.
From Verif Require Import Base BaseLemmas Basics_Model Basics_Spec Basics_Proofs Mixing_Model Mixing_Spec Mixing_Proofs Mixing_Proofs2.
Local Open Scope R_scope.

Lemma xi_up_val V : forall a k b i c j, In (a, k) [("u", 0); ("c", 1); ("t", 2)]%string%nat ->
  In (b, i) [("d", 0); ("s", 1); ("b", 2)]%string%nat -> In (c, j) [("d", 0); ("s", 1); ("b", 2)]%string%nat ->
  xi_of V a (b, c) = (V k i * Cconj (V k j))%C.
Proof.
  intros a k b i c j Ha Hb Hc. simpl in Ha, Hb, Hc.
  destruct Ha as [Ha | [Ha | [Ha | []]]], Hb as [Hb | [Hb | [Hb | []]]], Hc as [Hc | [Hc | [Hc | []]]]; injection Ha as <- <-;
    injection Hb as <- <-; injection Hc as <- <-; reflexivity.
Qed.
Lemma xi_down_val V : forall a k b i c j, In (a, k) [("d", 0); ("s", 1); ("b", 2)]%string%nat ->
  In (b, i) [("u", 0); ("c", 1); ("t", 2)]%string%nat -> In (c, j) [("u", 0); ("c", 1); ("t", 2)]%string%nat ->
  xi_of V a (b, c) = (V i k * Cconj (V j k))%C.
Proof.
  intros a k b i c j Ha Hb Hc. simpl in Ha, Hb, Hc.
  destruct Ha as [Ha | [Ha | [Ha | []]]], Hb as [Hb | [Hb | [Hb | []]]], Hc as [Hc | [Hc | [Hc | []]]]; injection Ha as <- <-;
    injection Hb as <- <-; injection Hc as <- <-; reflexivity.
Qed.
Lemma xi_conj V a bc : xi_of (conjugate V) a bc = Cconj (xi_of V a bc).
Proof.
  unfold xi_of. unfold xi. destruct (od_get a q_dict_u).
  - destruct (letter 0 _); cbn; [| unfold Cconj, RtoC; cbn; now rewrite Ropp_0].
    destruct (lookup _ _); cbn; [| unfold Cconj, RtoC; cbn; now rewrite Ropp_0].
    destruct (letter 1 _); cbn; [| unfold Cconj, RtoC; cbn; now rewrite Ropp_0].
    destruct (lookup _ _); cbn; [| unfold Cconj, RtoC; cbn; now rewrite Ropp_0].
    unfold xi_kl_ij, conjugate. now rewrite Cconj_mult.
  - destruct (lookup _ _); cbn; [| unfold Cconj, RtoC; cbn; now rewrite Ropp_0].
    destruct (letter 0 _); cbn; [| unfold Cconj, RtoC; cbn; now rewrite Ropp_0].
    destruct (lookup _ _); cbn; [| unfold Cconj, RtoC; cbn; now rewrite Ropp_0].
    destruct (letter 1 _); cbn; [| unfold Cconj, RtoC; cbn; now rewrite Ropp_0].
    destruct (lookup _ _); cbn; [| unfold Cconj, RtoC; cbn; now rewrite Ropp_0].
    unfold xi_kl_ij, conjugate. now rewrite Cconj_mult.
Qed.
Lemma Cconj_R r : Cconj (RtoC r) = RtoC r.
Proof. unfold Cconj, RtoC. cbn. now rewrite Ropp_0. Qed.
Lemma Cconj_opp z : Cconj (- z)%C = (- Cconj z)%C.
Proof. reflexivity. Qed.
Lemma Cconj_inv z : Cconj (/ z)%C = (/ Cconj z)%C.
Proof.
  destruct z as [a b]. unfold Cinv, Cconj. cbn [fst snd]. replace (a ^ 2 + (- b) ^ 2) with (a ^ 2 + b ^ 2) by ring.
  apply injective_projections; cbn [fst snd]; [reflexivity | unfold Rdiv; ring].
Qed.
Lemma Cconj_div a b : Cconj (a / b)%C = (Cconj a / Cconj b)%C.
Proof. unfold Cdiv. now rewrite Cconj_mult, Cconj_inv. Qed.
Lemma Cinv_mult_any a b : a <> RtoC 0 -> (/ (a * b))%C = (/ a * / b)%C.
Proof.
  intros Ha. destruct (Ceq_dec b (RtoC 0)) as [-> | Hb]; [| field; tauto].
  replace (a * RtoC 0)%C with (RtoC 0) by ring.
  assert (E : (/ RtoC 0)%C = RtoC 0) by (unfold Cinv, RtoC; cbn [fst snd]; apply injective_projections; cbn [fst snd]; unfold Rdiv; ring).
  rewrite E. ring.
Qed.

Section Amp.
  Variable get_mt_mt : params -> R.
  Variable get_mq : string -> params -> R -> R.
  Variable get_alpha_s : params -> R -> R.
  Variable scale : meson -> R.
  Variable K_mixing : unitarity.
  Let cv := cvll_d get_mt_mt K_mixing.
  Let msm := M12_d_SM get_mt_mt get_mq get_alpha_s scale K_mixing.
  Let amp := get_M12_G12 get_mt_mt get_mq get_alpha_s scale K_mixing.

  Ltac cj := rewrite ?Cconj_mult, ?Cconj_plus, ?Cconj_opp, ?Cconj_div, ?Cconj_mult, ?Cconj_plus, ?Cconj_mult, ?Cconj_R.
  Lemma cvll_conj V par m : cv (conjugate V) par m = Cconj (cv V par m).
  Proof. unfold cv, cvll_d. destruct m; [| | destruct K_mixing |]; rewrite !xi_conj; cj; reflexivity. Qed.
  Lemma msm_conj V par m : msm (conjugate V) par m = Cconj (msm V par m).
  Proof. unfold msm, M12_d_SM. rewrite (cvll_conj V par m : cvll_d get_mt_mt K_mixing (conjugate V) par m = Cconj (cvll_d get_mt_mt K_mixing V par m)). cj. reflexivity. Qed.
  Lemma D_conj V par pre : D_SM (conjugate V) par pre = Cconj (D_SM V par pre).
  Proof. unfold D_SM. rewrite !xi_conj. cj. reflexivity. Qed.
  Lemma wc_conj (wc : od string C) k : od_get k (conjugate_wc wc) = option_map Cconj (od_get k wc).
  Proof. unfold conjugate_wc. induction wc as [| [k' c] wc IH]; [reflexivity |]. cbn. destruct (eqb k k'); [reflexivity | exact IH]. Qed.

  (** the contribution of the operators *)
  Definition coeff (wc : od string C) (k : string) : C := match od_get k wc with Some c => c | None => RtoC 0 end.
  Definition np (par : params) (wc : od string C) (m : meson) : C :=
    fold_left (fun (acc : C) (kv : string * R) =>
      (acc + (- coeff wc (fst kv ++ "_" ++ (fst (meson_quark m) ++ snd (meson_quark m)) ++ (fst (meson_quark m) ++ snd (meson_quark m)))%string) * RtoC (snd kv))%C)
      (matrixelements get_mq scale par m) (RtoC 0).
  Definition sm V par m : C := match m with D0 => M12_u_SM V par | _ => msm V par m end.
  Lemma M12_split V par wc m : fst (amp V par wc m) = (np par wc m + sm V par m)%C.
  Proof. unfold amp, get_M12_G12, M12, np, sm. cbn [fst]. destruct m; reflexivity. Qed.

  Lemma fold_conj (f g : string -> C) l : (forall k, g k = Cconj (f k)) -> forall acc,
    fold_left (fun (acc : C) (kv : string * R) => (acc + (- g (fst kv)) * RtoC (snd kv))%C) l (Cconj acc) =
    Cconj (fold_left (fun (acc : C) (kv : string * R) => (acc + (- f (fst kv)) * RtoC (snd kv))%C) l acc).
  Proof.
    intros H. induction l as [| kv l IH]; intros acc; [reflexivity |]. cbn [fold_left].
    rewrite <- IH. f_equal. rewrite H. cj. reflexivity.
  Qed.
  Lemma np_conj par wc m : np par (conjugate_wc wc) m = Cconj (np par wc m).
  Proof.
    unfold np. rewrite <- (Cconj_R 0) at 1.
    apply (fold_conj (fun k => coeff wc (k ++ "_" ++ (fst (meson_quark m) ++ snd (meson_quark m)) ++ (fst (meson_quark m) ++ snd (meson_quark m)))%string)
                     (fun k => coeff (conjugate_wc wc) (k ++ "_" ++ (fst (meson_quark m) ++ snd (meson_quark m)) ++ (fst (meson_quark m) ++ snd (meson_quark m)))%string)).
    intros k. unfold coeff. rewrite wc_conj. destruct (od_get _ wc); cbn [option_map]; [reflexivity | now rewrite Cconj_R].
  Qed.
  Lemma amp_conj V par wc m : amp (conjugate V) par (conjugate_wc wc) m = (Cconj (fst (amp V par wc m)), Cconj (snd (amp V par wc m))).
  Proof.
    apply injective_projections; cbn [fst snd].
    - rewrite !M12_split, Cconj_plus, np_conj. f_equal. unfold sm, M12_u_SM. destruct m; try apply msm_conj. apply D_conj.
    - unfold amp, get_M12_G12. cbn [snd]. destruct m.
      + unfold G12_d_SM. rewrite (msm_conj V par B0 : M12_d_SM get_mt_mt get_mq get_alpha_s scale K_mixing (conjugate V) par B0 = Cconj (M12_d_SM get_mt_mt get_mq get_alpha_s scale K_mixing V par B0)).
        rewrite !xi_conj. cj. reflexivity.
      + unfold G12_d_SM. rewrite (msm_conj V par Bs : M12_d_SM get_mt_mt get_mq get_alpha_s scale K_mixing (conjugate V) par Bs = Cconj (M12_d_SM get_mt_mt get_mq get_alpha_s scale K_mixing V par Bs)).
        rewrite !xi_conj. cj. reflexivity.
      + now rewrite Cconj_R.
      + apply D_conj.
  Qed.

  (** linearity *)
  Lemma fold_lin (f g h : string -> C) (a : C) l : (forall k, h k = (a * f k + g k)%C) -> forall s t,
    fold_left (fun (acc : C) (kv : string * R) => (acc + (- h (fst kv)) * RtoC (snd kv))%C) l (a * s + t)%C =
    (a * fold_left (fun (acc : C) (kv : string * R) => (acc + (- f (fst kv)) * RtoC (snd kv))%C) l s
     + fold_left (fun (acc : C) (kv : string * R) => (acc + (- g (fst kv)) * RtoC (snd kv))%C) l t)%C.
  Proof.
    intros H. induction l as [| kv l IH]; intros s t; [reflexivity |]. cbn [fold_left]. rewrite <- IH. f_equal. rewrite H. ring.
  Qed.
  Lemma np_lin par wc wc1 wc2 a m : (forall k, coeff wc k = (a * coeff wc1 k + coeff wc2 k)%C) ->
    np par wc m = (a * np par wc1 m + np par wc2 m)%C.
  Proof.
    intros H. unfold np. set (sfx := ("_" ++ _)%string).
    rewrite <- (fold_lin (fun k => coeff wc1 (k ++ sfx)%string) (fun k => coeff wc2 (k ++ sfx)%string) (fun k => coeff wc (k ++ sfx)%string) a).
    - f_equal. ring.
    - intros k. apply H.
  Qed.
  Lemma np_nil par m : np par [] m = RtoC 0.
  Proof. unfold np, coeff. cbn. ring. Qed.

  (** chirality *)
  Lemma np_val par wc m : let n := meson_name m in
    let mM := par ("m_" ++ n)%string in let fM := par ("f_" ++ n)%string in let BM (i : string) := par ("bag_" ++ n ++ "_" ++ i)%string in
    let r := (mM / (get_mq (fst (meson_quark m)) par (scale m) + get_mq (snd (meson_quark m)) par (scale m))) ^ 2 in
    let q := (fst (meson_quark m) ++ snd (meson_quark m) ++ fst (meson_quark m) ++ snd (meson_quark m))%string in
    let c (s : string) := coeff wc (s ++ "_" ++ q)%string in
    np par wc m = (- (RtoC (mM * fM ^ 2) * ((c "CVLL" + c "CVRR") * RtoC (1 / 3 * BM "1") + c "CSLR" * RtoC (1 / 4 * BM "4" * r)
      - c "CVLR" * RtoC (1 / 6 * BM "5" * r) - (c "CSLL" + c "CSRR") * RtoC (5 / 24 * BM "2" * r)
      + (c "CTLL" + c "CTRR") * RtoC (1 / 2 * r * (5 * BM "2" / 3 - 2 * BM "3" / 3)))))%C%string.
  Proof.
    intros n mM fM BM r q c. unfold np, matrixelements. fold n mM fM r. cbn [fold_left fst snd].
    set (c' := fun s : string => coeff wc (s ++ "_" ++ (fst (meson_quark m) ++ snd (meson_quark m)) ++ (fst (meson_quark m) ++ snd (meson_quark m)))%string).
    assert (E : forall s, c' s = c s) by (intros s; destruct m; reflexivity).
    cbn [fst]. repeat match goal with |- context [coeff wc (?s ++ "_" ++ (fst (meson_quark m) ++ snd (meson_quark m)) ++ _)%string] =>
      change (coeff wc (s ++ "_" ++ (fst (meson_quark m) ++ snd (meson_quark m)) ++ (fst (meson_quark m) ++ snd (meson_quark m)))%string) with (c' s); rewrite (E s) end.
    fold (BM "1"%string) (BM "2"%string) (BM "3"%string) (BM "4"%string) (BM "5"%string).
    generalize (c "CVLL"%string) (c "CVRR"%string) (c "CSLR"%string) (c "CVLR"%string) (c "CSLL"%string) (c "CSRR"%string) (c "CTLL"%string) (c "CTRR"%string).
    generalize (BM "1"%string) (BM "2"%string) (BM "3"%string) (BM "4"%string) (BM "5"%string) r fM mM.
    intros. repeat match goal with z : C |- _ => destruct z end. unfold Cminus, Cplus, Cmult, Copp, RtoC. cbn [fst snd].
    apply injective_projections; cbn [fst snd]; field.
  Qed.
End Amp.

(** the two ways of using unitarity in kaon mixing *)
Lemma kaon_unitarity get_mt_mt V par : unitary V ->
  (forall k, In k ["tt_K0_ut"; "ut_K0_ut"; "uu_K0_ut"; "tt_K0"; "ct_K0"; "cc_K0"]%string -> par ("eta_" ++ k)%string = 1) ->
  get_mt_mt par ^ 2 / par "m_W"%string ^ 2 <> 1 -> par "m_c"%string ^ 2 / par "m_W"%string ^ 2 <> 1 -> par "m_u"%string ^ 2 / par "m_W"%string ^ 2 <> 1 ->
  cvll_d get_mt_mt Ut V par K0 = cvll_d get_mt_mt Ct V par K0.
Proof.
  intros [HV _] He Ht Hc Hu. unfold cvll_d. cbn [meson_quark meson_name].
  set (xt := get_mt_mt par ^ 2 / _) in *. set (xc := par "m_c"%string ^ 2 / _) in *. set (xu := par "m_u"%string ^ 2 / _) in *.
  rewrite (xi_up_val V "t" 2 "s" 1 "d" 0)%string%nat by (cbn; tauto). rewrite (xi_up_val V "u" 0 "s" 1 "d" 0)%string%nat by (cbn; tauto).
  rewrite (xi_up_val V "c" 1 "s" 1 "d" 0)%string%nat by (cbn; tauto).
  rewrite (He ("tt_" ++ "K0" ++ "_ut")%string), (He ("ut_" ++ "K0" ++ "_ut")%string), (He ("uu_" ++ "K0" ++ "_ut")%string) by (cbn; tauto).
  rewrite (He ("tt_" ++ "K0")%string), (He ("ct_" ++ "K0")%string), (He ("cc_" ++ "K0")%string) by (cbn; tauto).
  pose proof (HV 1 0 ltac:(lia) ltac:(lia))%nat as U. unfold delta in U. cbn [Nat.eqb] in U.
  set (u := (V 0%nat 1%nat * Cconj (V 0%nat 0%nat))%C) in *. set (c := (V 1%nat 1%nat * Cconj (V 1%nat 0%nat))%C) in *. set (t := (V 2%nat 1%nat * Cconj (V 2%nat 0%nat))%C) in *.
  assert (Eu : u = (- (c + t))%C) by (replace u with (u + c + t - (c + t))%C by ring; rewrite U; ring). rewrite Eu.
  unfold S0_box. rewrite (F_sym xu xt), (F_sym xu xc), (F_sym xt xc) by assumption.
  replace (RtoC 2) with (RtoC 1 + RtoC 1)%C by (rewrite <- RtoC_plus; f_equal; ring). rewrite !RtoC_minus, !RtoC_plus. ring.
Qed.
