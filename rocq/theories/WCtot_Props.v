(** * Theorems: total and effective Wilson coefficients of flavour-changing neutral currents (C175, C176, C177) *)
From Coq Require Import Reals Lra Lia.
From Coquelicot Require Import Coquelicot.
From Coq Require Import String List.
From Verif Require Import Base BaseLemmas Angular_Model Rare_Model RareH_Props WCtot_Model WCtot_Spec WCtot_Proofs.
Import ListNotations.
Local Open Scope R_scope.
Local Open Scope string_scope.

(** ** C175: total coefficients *)
Definition value (np : od string C) (n : string) : C := match od_get n np with Some v => v | None => RtoC 0 end.
Definition has (np : od string C) (n : string) : Prop := exists v, od_get n np = Some v.
(** new physics contains the coefficients with flipped chirality of four-quark and dipole operators *)
Definition primed_known (q : string) (np : od string C) : Prop :=
  has np ("C3p_" ++ q) /\ has np ("C4p_" ++ q) /\ has np ("C5p_" ++ q) /\ has np ("C6p_" ++ q) /\ has np ("C7p_" ++ q) /\ has np ("C8p_" ++ q).
Section Total.
  Variables (data : list (list R)) (np : od string C) (q l : string) (scale m_t ms mb : R).
  Hypotheses (T : table_ok data) (S : In (q, l) sectors) (K : primed_known q np) (B : 2 <= scale <= 11 / 2).

  Theorem C175_total : exists (t : nat -> R) tot, wctot_dict data (Ok np) (q ++ l) scale m_t ms mb 5 = Ok tot /\
    (forall i row, nth_error data i = Some row -> on_line row scale (t i)) /\
    (forall n v, In (n, v) (SM_part q l t m_t (ms / mb)) -> od_get n tot = Some (RtoC v + value np n)%C) /\
    (forall n, ~ In n (map fst (SM_part q l t m_t (ms / mb))) -> ~ In n (eff_names q) -> od_get n tot = od_get n np) /\
    (let np n := value np (n ++ q) in let e := if String.eqb q "bs" then ms / mb else 0 in
     od_get ("C7eff_" ++ q) tot = Some (RtoC (t 6%nat) + C7_comb (np "C7_") (np "C3_") (np "C4_") (np "C5_") (np "C6_"))%C /\
     od_get ("C8eff_" ++ q) tot = Some (RtoC (t 7%nat) + C8_comb (np "C8_") (np "C3_") (np "C4_") (np "C5_") (np "C6_"))%C /\
     od_get ("C7effp_" ++ q) tot = Some (RtoC (e * C7_noneff t) + C7_comb (np "C7p_") (np "C3p_") (np "C4p_") (np "C5p_") (np "C6p_"))%C /\
     od_get ("C8effp_" ++ q) tot = Some (RtoC (e * C8_noneff t) + C8_comb (np "C8p_") (np "C3p_") (np "C4p_") (np "C5p_") (np "C6p_"))%C).
  Proof.
    destruct (table_at data scale T B) as (ys & E & L & V). exists (nthR ys).
    pose proof (wctot_is data np q l scale m_t ms mb ys S E L) as W. cbv zeta in W. set (t := nthR ys) in *.
    assert (V' : forall i row, nth_error data i = Some row -> on_line row scale (t i)). { intros i row I. destruct (V i row I) as (v & Iv & O). unfold t, nthR. now rewrite (nth_error_nth ys i 0 Iv). }
    pose proof (SM_nodup q l t m_t (ms / mb) S) as N. set (tot := add_dict2 np (cpart (SM_part q l t m_t (ms / mb)))) in *.
    assert (N' : NoDup (map fst (cpart (SM_part q l t m_t (ms / mb))))) by (unfold cpart; rewrite map_map; exact N).
    assert (G : forall n v, In (n, v) (SM_part q l t m_t (ms / mb)) -> od_get n tot = Some (RtoC v + value np n)%C).
    { intros n v I. unfold tot. rewrite get_add2 by exact N'. rewrite (od_In_get n (RtoC v)); [reflexivity | exact N' |]. apply (in_map (fun kv => (fst kv, RtoC (snd kv)))) in I. exact I. }
    assert (H : forall n, ~ In n (map fst (SM_part q l t m_t (ms / mb))) -> od_get n tot = od_get n np).
    { intros n I. unfold tot. rewrite get_add2 by exact N'. assert (O : od_get n (cpart (SM_part q l t m_t (ms / mb))) = None). { apply od_get_None. unfold od_keys, cpart. rewrite map_map. exact I. } now rewrite O. }

    assert (Np : forall n, In n (["C3p_" ++ q; "C4p_" ++ q; "C5p_" ++ q; "C6p_" ++ q] ++ (if String.eqb q "bs" then [] else ["C7p_" ++ q; "C8p_" ++ q])) -> od_get n tot = od_get n np).
    { intros n I. apply H. exact (not_SM q l n t m_t (ms / mb) S I). }
    assert (Val : forall n, has np n -> od_get n np = Some (value np n)) by (intros n (v & h); unfold value; now rewrite h).
    destruct K as (k3 & k4 & k5 & k6 & k7 & k8).
    set (e := if String.eqb q "bs" then ms / mb else 0).
    assert (P7 : od_get ("C7p_" ++ q) tot = Some (RtoC (e * C7_noneff t) + value np ("C7p_" ++ q))%C /\ od_get ("C8p_" ++ q) tot = Some (RtoC (e * C8_noneff t) + value np ("C8p_" ++ q))%C).
    { unfold e. destruct (String.eqb q "bs") eqn:Q.
      - split; apply G; unfold SM_part; apply in_or_app; right; rewrite Q; cbn; tauto.
      - rewrite (Np ("C7p_" ++ q)) by (cbn; tauto). rewrite (Np ("C8p_" ++ q)) by (cbn; tauto). rewrite !Val by assumption. rewrite !Rmult_0_l. split; f_equal; ring. }
    destruct P7 as (p7 & p8).
    assert (In4 : forall n v, In (n, v) [("C3_" ++ q, t 2%nat); ("C4_" ++ q, t 3%nat); ("C5_" ++ q, t 4%nat); ("C6_" ++ q, t 5%nat); ("C7_" ++ q, C7_noneff t); ("C8_" ++ q, C8_noneff t)] -> od_get n tot = Some (RtoC v + value np n)%C).
    { intros n v I. apply G. unfold SM_part. apply in_or_app. left. cbn [In] in I |- *. tauto. }
    pose proof (In4 ("C3_" ++ q) (t 2%nat) (or_introl eq_refl)) as i0.
    pose proof (In4 ("C4_" ++ q) (t 3%nat) (or_intror (or_introl eq_refl))) as i1.
    pose proof (In4 ("C5_" ++ q) (t 4%nat) (or_intror (or_intror (or_introl eq_refl)))) as i2.
    pose proof (In4 ("C6_" ++ q) (t 5%nat) (or_intror (or_intror (or_intror (or_introl eq_refl))))) as i3.
    pose proof (In4 ("C7_" ++ q) (C7_noneff t) (or_intror (or_intror (or_intror (or_intror (or_introl eq_refl)))))) as i4.
    pose proof (In4 ("C8_" ++ q) (C8_noneff t) (or_intror (or_intror (or_intror (or_intror (or_intror (or_introl eq_refl))))))) as i5.
    pose proof (eq_trans (Np ("C3p_" ++ q) (or_introl eq_refl)) (Val _ k3)) as j0.
    pose proof (eq_trans (Np ("C4p_" ++ q) (or_intror (or_introl eq_refl))) (Val _ k4)) as j1.
    pose proof (eq_trans (Np ("C5p_" ++ q) (or_intror (or_intror (or_introl eq_refl)))) (Val _ k5)) as j2.
    pose proof (eq_trans (Np ("C6p_" ++ q) (or_intror (or_intror (or_intror (or_introl eq_refl))))) (Val _ k6)) as j3.
    rewrite (eff_ok tot q _ _ _ _ _ _ _ _ _ _ _ _ i0 i1 i2 i3 j0 j1 j2 j3 i4 i5 p7 p8) in W.
    cbn [bind] in W. eexists. split; [exact W |]. clear W.
    match goal with |- context[od_update tot ?x] => set (eff := x) end.
    assert (U : forall n, od_get n (od_update tot eff) = if eqb n ("C8effp_" ++ q) then Some (C8_comb (RtoC (e * C8_noneff t) + value np ("C8p_" ++ q)) (value np ("C3p_" ++ q)) (value np ("C4p_" ++ q)) (value np ("C5p_" ++ q)) (value np ("C6p_" ++ q)))%C
      else od_get n (od_set ("C7effp_" ++ q) (C7_comb (RtoC (e * C7_noneff t) + value np ("C7p_" ++ q)) (value np ("C3p_" ++ q)) (value np ("C4p_" ++ q)) (value np ("C5p_" ++ q)) (value np ("C6p_" ++ q)))%C
        (od_set ("C8eff_" ++ q) (C8_comb (RtoC (C8_noneff t) + value np ("C8_" ++ q)) (RtoC (t 2%nat) + value np ("C3_" ++ q)) (RtoC (t 3%nat) + value np ("C4_" ++ q)) (RtoC (t 4%nat) + value np ("C5_" ++ q)) (RtoC (t 5%nat) + value np ("C6_" ++ q)))%C
        (od_set ("C7eff_" ++ q) (C7_comb (RtoC (C7_noneff t) + value np ("C7_" ++ q)) (RtoC (t 2%nat) + value np ("C3_" ++ q)) (RtoC (t 3%nat) + value np ("C4_" ++ q)) (RtoC (t 4%nat) + value np ("C5_" ++ q)) (RtoC (t 5%nat) + value np ("C6_" ++ q)))%C tot)))).
    { intros n. unfold od_update, eff. cbn [fold_left fst snd]. now rewrite od_get_set. }
    assert (O : forall n, ~ In n (eff_names q) -> od_get n (od_update tot eff) = od_get n tot).
    { intros n I. cbn in I. rewrite U. destruct (eqb_spec n ("C8effp_" ++ q)) as [x | _]; [exfalso; apply I; rewrite x; cbn; tauto |]. rewrite !od_get_set_ne by (intros x; apply I; rewrite x; cbn; tauto). reflexivity. }
    assert (NE : forall n v, In (n, v) (SM_part q l t m_t (ms / mb)) -> ~ In n (eff_names q)).
    { intros n v I J. exact (eff_not_SM q l n t m_t (ms / mb) S J (in_map fst _ _ I)). }
    refine (conj V' (conj _ (conj _ _))).
    - intros n v I. rewrite O by exact (NE n v I). exact (G n v I).
    - intros n I J. rewrite O by exact J. exact (H n I).
    - clear - U. cbv zeta. assert (D : forall a b, a <> b -> eqb (a ++ q) (b ++ q) = false) by (intros a b n; apply neq_eqb, app_name, n).
      rewrite !U, !od_get_set, !eqb_refl, !D by discriminate. refine (conj _ (conj _ (conj _ _))); f_equal; unfold C7_comb, C8_comb, C7_noneff, C8_noneff; apply injective_projections; cbn [fst snd Cplus Cminus Copp Cmult RtoC]; field.
  Qed.
End Total.

(** errors: the flavour scheme, the range of scales, the sector; errors of [get_wc] come first *)
Theorem C175_errors (data : list (list R)) (np : od string C) (sector : string) (scale m_t ms mb : R) (nf : nat) (e : exc) : table_ok data ->
  wctot_dict data (Err e) sector scale m_t ms mb nf = Err e /\
  (nf <> 5%nat -> wctot_dict data (Ok np) sector scale m_t ms mb nf = Err NotImplementedError) /\
  (scale < 2 \/ 11 / 2 < scale -> wctot_dict data (Ok np) sector scale m_t ms mb 5 = Err ValueError) /\
  (2 <= scale <= 11 / 2 -> (forall q l, In (q, l) sectors -> sector <> q ++ l) -> wctot_dict data (Ok np) sector scale m_t ms mb 5 = Err KeyError).
Proof.
  intros T. refine (conj eq_refl (conj _ (conj _ _))).
  - intros N. unfold wctot_dict. cbn [bind]. apply Nat.eqb_neq in N. now rewrite N.
  - intros O. unfold wctot_dict. cbn [bind Nat.eqb]. now rewrite (table_outside data scale T O).
  - intros B N. unfold wctot_dict. cbn [bind Nat.eqb]. destruct (table_at data scale T B) as (ys & -> & _). cbn [bind].
    assert (E : key sector fcnclabels = Err KeyError).
    { unfold key. destruct (od_get sector fcnclabels) eqn:G; [| reflexivity]. exfalso. apply od_get_In_keys in G.
      change (od_keys fcnclabels) with (map (fun ql => fst ql ++ snd ql) sectors) in G. apply in_map_iff in G as ((q & l') & G & I). apply (N q l' I). symmetry. exact G. }
    now rewrite E.
Qed.

(** ** C176: effective coefficients *)
(** defined at all q2 > 0; at q2 = 0 the loop of massless quarks raises ValueError *)
Theorem C176_defined (d : fourquark) (q2 scale : R) (qq lep : string) (wc : string -> C) (mb : R) : 0 < mb_pole d -> 0 < mc_pole d -> 0 < scale ->
  (0 < q2 -> exists f, get_wceff d q2 scale qq wc mb lep = Ok f) /\ get_wceff d 0 scale qq wc mb lep = Err ValueError.
Proof.
  intros B Cm U. split.
  - intros Q. unfold get_wceff, Y, Yu, delta_C9. rewrite !h_massive by assumption. rewrite h_massless by exact Q. cbn [bind]. cbv zeta.
    destruct (Req_EM_T (q2 / mb_pole d ^ 2) 0) as [z | _]; [| now eexists]. assert (0 < q2 / mb_pole d ^ 2) by (apply Rmult_lt_0_compat; [exact Q | apply Rinv_0_lt_compat, pow_lt, B]). lra.
  - unfold get_wceff, Y. rewrite !h_zero by assumption. cbn [bind]. unfold loop_h. destruct (Req_EM_T 0 0) as [_ | n]; [reflexivity | lra].
Qed.
(** the coefficients of four-quark and dipole operators enter in the same way for all leptons: the effective coefficients of two leptons (or of two sets of
    coefficients that differ in the operators with leptons only) differ by the coefficients themselves *)
Definition same_quark_part (qq : string) (wc wc' : string -> C) : Prop :=
  Forall (fun n => wc (n ++ "_" ++ qq) = wc' (n ++ "_" ++ qq)) ["C1"; "C2"; "C3"; "C4"; "C5"; "C6"; "C7eff"; "C7effp"; "C8eff"].
Theorem C176_leptons (d : fourquark) (q2 scale : R) (qq lep lep' : string) (wc wc' : string -> C) (mb : R) f f' : same_quark_part qq wc wc' ->
  get_wceff d q2 scale qq wc mb lep = Ok f -> get_wceff d q2 scale qq wc' mb lep' = Ok f' ->
  let s n := wc (n ++ "_" ++ qq ++ lep ++ lep) in let s' n := wc' (n ++ "_" ++ qq ++ lep' ++ lep') in
  f W7 = f' W7 /\ f W7p = wc ("C7effp_" ++ qq) /\ f W7p = f' W7p /\ (f Wv - f' Wv = s "C9" - s' "C9")%C /\ f Wvp = s "C9p" /\ f Wa = s "C10" /\ f Wap = s "C10p" /\
  f Ws = (RtoC mb * s "CS")%C /\ f Wsp = (RtoC mb * s "CSp")%C /\ f Wp = (RtoC mb * s "CP")%C /\ f Wpp = (RtoC mb * s "CPp")%C /\ f Wt = RtoC 0 /\ f Wtp = RtoC 0.
Proof.
  intros F E E'. unfold same_quark_part in F.
  assert (G : forall n, In n ["C1"; "C2"; "C3"; "C4"; "C5"; "C6"; "C7eff"; "C7effp"; "C8eff"] -> coef qq wc n = coef qq wc' n) by (rewrite Forall_forall in F; exact F). clear F.
  assert (y : Y d q2 scale qq wc = Y d q2 scale qq wc') by (unfold Y; rewrite !(G _) by (cbn; tauto); reflexivity).
  assert (yu : Yu d q2 scale qq wc = Yu d q2 scale qq wc') by (unfold Yu; rewrite !(G _) by (cbn; tauto); reflexivity).
  assert (d7 : delta_C7 d q2 scale qq wc = delta_C7 d q2 scale qq wc') by (unfold delta_C7; rewrite !(G _) by (cbn; tauto); reflexivity).
  assert (d9 : delta_C9 d q2 scale qq wc = delta_C9 d q2 scale qq wc') by (unfold delta_C9; rewrite !(G _) by (cbn; tauto); reflexivity).
  unfold get_wceff in E, E'. rewrite <- y, <- yu, <- d9, <- d7 in E'. destruct (Y _ _ _ _ _) as [a |]; [| discriminate]. destruct (Yu _ _ _ _ _) as [b |]; [| discriminate]. destruct (delta_C9 _ _ _ _ _) as [e |]; [| discriminate].
  cbn [bind] in E, E'. injection E as <-. injection E' as <-. cbv zeta. rewrite <- (G "C7eff"), <- (G "C7effp") by (cbn; tauto).
  repeat match goal with |- _ /\ _ => split end; try reflexivity.
  match goal with |- (?x + e + ?z - (?y + e + ?z))%C = _ => transitivity (x - y)%C; [generalize x y z; intros; ring | reflexivity] end.
Qed.
(** they are linear in the coefficients *)
Theorem C176_linear (d : fourquark) (q2 scale : R) (qq lep : string) (wc wc' : string -> C) (k k' : C) (mb : R) f f' :
  get_wceff d q2 scale qq wc mb lep = Ok f -> get_wceff d q2 scale qq wc' mb lep = Ok f' ->
  exists g, get_wceff d q2 scale qq (fun n => k * wc n + k' * wc' n)%C mb lep = Ok g /\ forall w, g w = (k * f w + k' * f' w)%C.
Proof.
  unfold get_wceff, Y, Yu, delta_C9. destruct (loop_h q2 (mc_pole d) scale) as [hc |]; [| discriminate]. destruct (loop_h q2 (mb_pole d) scale) as [hb |]; [| discriminate].
  destruct (loop_h q2 0 scale) as [h0 |]; [| discriminate]. cbn [bind]. cbv zeta. destruct (Req_EM_T (q2 / mb_pole d ^ 2) 0); [discriminate |]. cbn [bind].
  intros E E'. injection E as <-. injection E' as <-. eexists. split; [reflexivity |]. intros []; cbv beta iota; unfold delta_C7, Fu_17, Fu_27, Fu_19, Fu_29, coef; cbn [append];
    repeat match goal with |- context[wc ?n] => generalize (wc n) (wc' n); intros ? ? end; change (mb_pole d * (mb_pole d * 1)) with (mb_pole d ^ 2); ring.
Qed.

(** ** C177: matrix elements of four-quark operators *)
(** dependence on the scale through one combination of coefficients; the doubly Cabibbo-suppressed part does not depend on it, and vanishes for a massless charm quark *)
Theorem C177_scale (d : fourquark) (q2 mu mu' : R) (qq : string) (wc : string -> C) : 0 < mb_pole d -> 0 < mc_pole d -> 0 < q2 -> 0 < mu -> 0 < mu' ->
  let C n := wc (n ++ "_" ++ qq) in
  exists y y' yu, Y d q2 mu qq wc = Ok y /\ Y d q2 mu' qq wc = Ok y' /\ Yu d q2 mu qq wc = Ok yu /\ Yu d q2 mu' qq wc = Ok yu /\
  (y' - y = RtoC (8 / 9 * ln (mu' / mu)) * (RtoC (4 / 3) * C "C1" + C "C2" + RtoC 2 * C "C3" - RtoC (4 / 3) * C "C4" + RtoC 14 * C "C5" - RtoC (64 / 3) * C "C6"))%C.
Proof.
  intros B Cm Q U U' C'. destruct (C185_scale q2 (mc_pole d) mu mu') as (hc & hc' & c1 & c2 & c3); try lra. destruct (C185_scale q2 (mb_pole d) mu mu') as (hb & hb' & b1 & b2 & b3); try lra.
  destruct (C185_scale q2 0 mu mu') as (h0 & h0' & a1 & a2 & a3); try lra. set (L := 8 / 9 * ln (mu' / mu)) in *. clearbody L.
  unfold Y, Yu. rewrite c1, c2, b1, b2, a1, a2. cbn [bind]. do 3 eexists. split; [reflexivity |]. split; [reflexivity |]. split; [reflexivity |].
  assert (hc'e : hc' = (hc + RtoC L)%C) by (rewrite <- c3; ring). assert (hb'e : hb' = (hb + RtoC L)%C) by (rewrite <- b3; ring). assert (h0'e : h0' = (h0 + RtoC L)%C) by (rewrite <- a3; ring). subst hc' hb' h0'.
  split; [f_equal; ring |]. unfold C', coef.
  set (k1 := wc ("C1" ++ "_" ++ qq)). set (k2 := wc ("C2" ++ "_" ++ qq)). set (k3 := wc ("C3" ++ "_" ++ qq)). set (k4 := wc ("C4" ++ "_" ++ qq)). set (k5 := wc ("C5" ++ "_" ++ qq)). set (k6 := wc ("C6" ++ "_" ++ qq)).
  apply injective_projections; cbn [fst snd Cplus Cminus Copp Cmult RtoC]; field.
Qed.
Theorem C177_massless_charm (d : fourquark) (q2 mu : R) (qq : string) (wc : string -> C) : mc_pole d = 0 -> 0 < q2 -> Yu d q2 mu qq wc = Ok (RtoC 0).
Proof. intros M Q. unfold Yu. rewrite M, h_massless by exact Q. cbn [bind]. f_equal. ring. Qed.
(** imaginary part for real coefficients: only light quarks below the charm threshold, light and charm quarks below the b threshold; between the two, it grows with the
    charm loop, which is at most that of a massless quark *)
Theorem C177_imaginary_part (d : fourquark) (q2 mu : R) (qq : string) (wc : string -> C) : 0 < mb_pole d -> 0 < mc_pole d -> 0 < q2 <= 4 * mb_pole d ^ 2 ->
  (forall n, Im (wc n) = 0) -> let c n := Re (wc (n ++ "_" ++ qq)) in
  let F_u := c "C3" + 4 / 3 * c "C4" + 16 * c "C5" + 64 / 3 * c "C6" in let F_c := 4 / 3 * c "C1" + c "C2" + 6 * c "C3" + 60 * c "C5" in
  exists y x, Y d q2 mu qq wc = Ok y /\ Im y = 4 / 9 * PI * (x * F_c - 1 / 2 * F_u) /\ 0 <= x < 1 /\ (q2 <= 4 * mc_pole d ^ 2 -> x = 0) /\ (4 * mc_pole d ^ 2 < q2 -> 0 < x).
Proof.
  intros B Cm (Q & L) R c F_u F_c. pose proof PI_RGT_0 as P. destruct (C185_imaginary_part q2 (mc_pole d) mu ltac:(lra) Cm) as (hc & c1 & c2 & c3 & _). destruct (C185_imaginary_part q2 (mb_pole d) mu ltac:(lra) B) as (hb & b1 & b2 & _ & _).
  specialize (b2 L). unfold Y. rewrite c1, b1, h_massless by exact Q. cbn [bind]. eexists. exists (Im hc / (4 / 9 * PI)). split; [reflexivity |].
  assert (I : forall n, coef qq wc n = RtoC (c n)). { intros n. unfold c, coef. specialize (R (n ++ "_" ++ qq)). destruct (wc (n ++ "_" ++ qq)) as [a b]. cbn in R |- *. now rewrite R. }
  rewrite !I. clear I. refine (conj _ (conj _ (conj _ _))).
  - unfold F_c, F_u. generalize (c "C1") (c "C2") (c "C3") (c "C4") (c "C5") (c "C6"). intros k1 k2 k3 k4 k5 k6. destruct hc as [hr hi]. destruct hb as [br bi]. unfold Im in *. cbn [fst snd] in *. subst bi.
    cbn [fst snd Cplus Cminus Copp Cmult RtoC]. field. lra.
  - destruct (Rle_dec q2 (4 * mc_pole d ^ 2)) as [l | l].
    + rewrite (c2 l). unfold Rdiv. rewrite Rmult_0_l. lra.
    + destruct (c3 ltac:(lra)) as (u & v). split; [apply Rlt_le, Rmult_lt_0_compat; [exact u | apply Rinv_0_lt_compat; lra] |].
      apply (Rmult_lt_reg_r (4 / 9 * PI)); [lra |]. unfold Rdiv at 1. rewrite Rmult_assoc, Rinv_l by lra. lra.
  - intros l. rewrite (c2 l). unfold Rdiv. apply Rmult_0_l.
  - intros l. apply Rmult_lt_0_compat; [apply (c3 l) | apply Rinv_0_lt_compat; lra].
Qed.
(** ** the corrections, ordered by the CKM factors: lam = xi_u/xi_t *)
Theorem C176_corrections (d : fourquark) (q2 scale : R) (qq lep : string) (wc : string -> C) (mb : R) f hc hb h0 :
  get_wceff d q2 scale qq wc mb lep = Ok f -> loop_h q2 (mc_pole d) scale = Ok hc -> loop_h q2 (mb_pole d) scale = Ok hb -> loop_h q2 0 scale = Ok h0 ->
  let C n := wc (n ++ "_" ++ qq) in let lam := xi_ut d in let sh := q2 / mb_pole d ^ 2 in let k := RtoC (alpha_s d / (4 * PI)) in
  let T := (RtoC (4 / 3) * C "C1" + C "C2")%C in
  let Cc := (RtoC (16 / 81) * (Ci * RtoC PI - RtoC (ln (q2 / scale ^ 2))) + RtoC (428 / 243 - 64 / 27 * zeta3 d))%C in
  f W7 = (C "C7eff" - k * ((RtoC 1 - lam) * (C "C1" * F17 d + C "C2" * F27 d) + C "C8eff" * F_87 (ln (scale / mb_pole d)) sh + lam * A_seidel d * (C "C1" - RtoC 6 * C "C2")))%C /\
  f Wv = (wc ("C9_" ++ qq ++ lep ++ lep)
    - k * ((RtoC 1 - lam) * (C "C1" * F19 d + C "C2" * F29 d) + C "C8eff" * RtoC (F_89 (ln sh) sh) + lam * ((B_seidel d + RtoC 4 * Cc) * C "C1" - (RtoC 6 * B_seidel d - RtoC 3 * Cc) * C "C2"))
    + hc * ((RtoC 1 + lam) * T + RtoC 6 * C "C3" + RtoC 60 * C "C5") - h0 * (lam * T + (RtoC (1 / 2) * C "C3" + RtoC (2 / 3) * C "C4" + RtoC 8 * C "C5" + RtoC (32 / 3) * C "C6"))
    - hb * (RtoC (7 / 2) * C "C3" + RtoC (2 / 3) * C "C4" + RtoC 38 * C "C5" + RtoC (32 / 3) * C "C6")
    + RtoC (4 / 3) * C "C3" + RtoC (64 / 9) * C "C5" + RtoC (64 / 27) * C "C6")%C.
Proof.
  intros E Ec Eb E0. cbv zeta. unfold get_wceff, Y, Yu, delta_C9 in E. rewrite Ec, Eb, E0 in E. cbn [bind] in E. cbv zeta in E.
  destruct (Req_EM_T (q2 / mb_pole d ^ 2) 0) as [|n]; [discriminate |]. cbn [bind] in E. set (sh := q2 / mb_pole d ^ 2) in *. set (F89 := F_89 (ln sh) sh) in *. clearbody F89.
  match type of E with Ok ?g = Ok f => assert (f = g) by congruence end. subst f. clear E. cbv beta iota. unfold delta_C7, Fu_17, Fu_27, Fu_19, Fu_29, SeidelC, coef. cbv zeta. fold sh. set (F87 := F_87 _ sh). clearbody F87.
  change (wc ("C9_" ++ qq ++ lep ++ lep)) with (wc ("C9" ++ "_" ++ qq ++ lep ++ lep)).
  repeat match goal with |- context[wc ?n] => generalize (wc n); intros ? end.
  replace (- alpha_s d / (4 * PI)) with (- (alpha_s d / (4 * PI))) by (unfold Rdiv; ring). set (k := alpha_s d / (4 * PI)). set (L := ln (q2 / scale ^ 2)). clearbody k L. clear n.
  split; apply injective_projections; cbn [fst snd Cplus Cminus Copp Cmult RtoC Ci]; field.
Qed.

(** the contribution of the gluon dipole to C9, eq. (39) of hep-ph/0312063, by powers of s: (rational part, part with - pi^2), and 16/9 ln s in each *)
Theorem C176_F89 (s : R) : F_89 (ln s) s = fold_right Rplus 0 (map (fun t => match t with (n, a, b) => (a - b * PI ^ 2 + 16 / 9 * ln s) * s ^ n end)
  [(0%nat, 104 / 9, 32 / 27); (1%nat, 1184 / 27, 40 / 9); (2%nat, 14212 / 135, 32 / 3); (3%nat, 193444 / 945, 560 / 27)]).
Proof. unfold F_89. cbn [map fold_right]. generalize (ln s). intros L. ring. Qed.
(** ** C186: two conventions for charged currents; electroweak correction *)
Theorem C186_conventions (c_sm CVL CVR CSR CSL CT : C) : let g := get_wceff_fccc c_sm CVL CVR CSR CSL CT in
  match get_wceff_fccc_std c_sm CVL CVR CSR CSL CT with (VL, VR, SR, SL, T) =>
    (g Wv - g Wa = VL)%C /\ (g Wvp - g Wap = VR)%C /\ (g Ws - g Wp = SR)%C /\ (g Wsp - g Wpp = SL)%C /\ g Wtp = T /\
    (g Wv + g Wa = RtoC 0)%C /\ (g Wvp + g Wap = RtoC 0)%C /\ (g Ws + g Wp = RtoC 0)%C /\ (g Wsp + g Wpp = RtoC 0)%C /\ g Wt = RtoC 0 /\ g W7 = RtoC 0 /\ g W7p = RtoC 0 /\ VL = (c_sm + CVL)%C
  end.
Proof.
  cbv zeta. unfold get_wceff_fccc_std, get_wceff_fccc, Cdiv. rewrite <- RtoC_inv by lra.
  repeat match goal with |- _ /\ _ => split end; try reflexivity; apply injective_projections; cbn [fst snd Cplus Cminus Copp Cmult RtoC]; field.
Qed.
Theorem C186_electroweak (a mZ mu mu' : R) (nf : nat) : 0 < a -> 0 < mZ -> 0 < mu < mu' ->
  ((nf < 4)%nat -> get_CVLSM a mZ mu nf = get_CVLSM a mZ mu' nf /\ get_CVLSM a mZ mu nf ^ 2 = 10232 / 10000 /\ 1 < get_CVLSM a mZ mu nf) /\
  ((4 <= nf)%nat -> get_CVLSM a mZ mZ nf = 1 /\ get_CVLSM a mZ mu nf - get_CVLSM a mZ mu' nf = a / PI * ln (mu' / mu) /\ get_CVLSM a mZ mu' nf < get_CVLSM a mZ mu nf /\ (mu < mZ -> 1 < get_CVLSM a mZ mu nf)).
Proof.
  intros A Z (U & U'). pose proof PI_RGT_0 as P. split; intros N; unfold get_CVLSM.
  - assert (E : Nat.leb 4 nf = false) by (apply Nat.leb_gt; exact N). rewrite E. split; [reflexivity |]. split; [rewrite <- Rsqr_pow2; apply Rsqr_sqrt; lra |]. rewrite <- sqrt_1 at 1. apply sqrt_lt_1; lra.
  - assert (E : Nat.leb 4 nf = true) by (apply Nat.leb_le; exact N). rewrite E. assert (k : 0 < a / PI) by (apply Rmult_lt_0_compat; [exact A | now apply Rinv_0_lt_compat]).
    rewrite !ln_div by lra. assert (L : ln mu < ln mu') by (apply ln_increasing; lra). refine (conj _ (conj _ (conj _ _))); [ring | ring | |].
    + assert (a / PI * (ln mZ - ln mu') < a / PI * (ln mZ - ln mu)) by (apply Rmult_lt_compat_l; lra). lra.
    + intros l. assert (ln mu < ln mZ) by (apply ln_increasing; lra). assert (0 < a / PI * (ln mZ - ln mu)) by (apply Rmult_lt_0_compat; lra). lra.
Qed.

Print Assumptions C175_total.
Print Assumptions C175_errors.
Print Assumptions C176_defined.
Print Assumptions C176_leptons.
Print Assumptions C176_linear.
Print Assumptions C176_corrections.
Print Assumptions C176_F89.
Print Assumptions C177_scale.
Print Assumptions C177_massless_charm.
Print Assumptions C177_imaginary_part.
Print Assumptions C186_conventions.
Print Assumptions C186_electroweak.

(** the hypotheses are met: a table, new physics in b -> s mu mu, a scale between two nodes *)
Definition ex_data : list (list R) := repeat [1; 2; 3; 4; 5; 6; 7; 8] 15.
Definition ex_np : od string C := [("C3p_bs", RtoC 0); ("C4p_bs", RtoC 0); ("C5p_bs", RtoC 0); ("C6p_bs", RtoC 0); ("C7p_bs", RtoC 0); ("C8p_bs", RtoC 0); ("C9_bsmumu", RtoC (-1)); ("C1p_bs", Ci)].
Example ex_total : exists tot t, wctot_dict ex_data (Ok ex_np) ("bs" ++ "mumu") (47 / 10) (1731 / 10) (8 / 100) (42 / 10) 5 = Ok tot /\ on_line [1; 2; 3; 4; 5; 6; 7; 8] (47 / 10) (t 8%nat) /\
  od_get "C9_bsmumu" tot = Some (RtoC (t 8%nat) + RtoC (-1))%C /\ od_get "C1p_bs" tot = Some Ci.
Proof.
  destruct (C175_total ex_data ex_np "bs" "mumu" (47 / 10) (1731 / 10) (8 / 100) (42 / 10)) as (t & tot & E & L & G & H & _).
  - split; [reflexivity |]. unfold ex_data. cbn [repeat]. repeat constructor.
  - cbn. tauto.
  - repeat split; eexists; reflexivity.
  - lra.
  - exists tot, t. split; [exact E |]. split; [apply (L 8%nat); reflexivity |]. split.
    + rewrite (G "C9_bsmumu" (t 8%nat)); [reflexivity | cbn; tauto].
    + rewrite (H "C1p_bs"); [reflexivity | apply notin_bool; reflexivity | apply notin_bool; reflexivity].
Qed.
Definition ex_fq : fourquark := FourQuark (48 / 10) (14 / 10) (2 / 10) (0, 1/100) (0, 1) (0, 1) (0, 1) (0, 1) (0, 1) (0, 1) (12 / 10).
Example ex_wceff : exists f, get_wceff ex_fq 1 (48 / 10) "bs" (fun n => if String.eqb n "C3_bs" then RtoC (-1 / 100) else RtoC 1) (42 / 10) "mu" = Ok f.
Proof. apply C176_defined; cbn; lra. Qed.
Example ex_im : 0 < 3 <= 4 * mb_pole ex_fq ^ 2. Proof. cbn. lra. Qed.
