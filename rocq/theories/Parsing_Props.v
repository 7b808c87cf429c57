(** * Constraint strings: C26, C27, C28, C29, C72 *)
From Coq Require Import QArith Qcanon.
From Verif Require Import Base BaseLemmas Regex Parsing_Model Parsing_Spec Parsing_Proofs Parsing_Proofs2 Parsing_Proofs3
  Parsing_Proofs4 Parsing_Proofs5 Parsing_Proofs6 Parsing_Proofs7.
Close Scope Q_scope. Close Scope Qc_scope.

(** The powers of ten in the specification are what they should be. *)
Theorem C26_powers : p10 0 = c1 /\ forall e, p10 (e + 1) = Qcmult (Z2Qc 10) (p10 e).
Proof. exact (conj p10_0 p10_succ). Qed.

(** Bracket notation; minus signs may be typed as U+2212. *)
Theorem C26_brackets b s : wf_bracket_string b -> typed (show_bracket_string b) s ->
  Forall (fun e => Qclt c0 (bs_error b e)) (bs_errors b) ->
  set_constraint_string s = Ok (map (fun e => Normal (bs_central b) (bs_error b e)) (bs_errors b)).
Proof.
  intros Hw E Hp. unfold set_constraint_string. rewrite (constraints_brackets b s Hw (typed_dash _ _ (ord_bracket_string _ Hw) E)), mk_all_normal.
  - cbn [bind]. rewrite map_map. destruct Hw as (_ & Hne & _). destruct (bs_errors b); [congruence|reflexivity].
  - apply Forall_map. exact Hp.
Qed.
Theorem C26_zero_error b s : wf_bracket_string b -> typed (show_bracket_string b) s ->
  Exists (fun e => Qcle (bs_error b e) c0) (bs_errors b) -> set_constraint_string s = Err ValueError.
Proof.
  intros Hw E Hp. unfold set_constraint_string. rewrite (constraints_brackets b s Hw (typed_dash _ _ (ord_bracket_string _ Hw) E)), mk_some_normal; [reflexivity|].
  apply Exists_exists in Hp. destruct Hp as [e [He Hp]]. apply Exists_exists. exists (bs_error b e). split; [now apply in_map|exact Hp].
Qed.

(** Plus-minus notation: the distributions are one normal per symmetric error, in order, then one
    asymmetric normal per asymmetric error, in order. *)
Theorem C27_plusminus p s : wf_pm_string p -> typed (show_pm_string p) s ->
  Forall (Qclt c0) (pm_symmetric p) -> Forall (fun rl => Qclt c0 (fst rl) /\ Qclt c0 (snd rl)) (pm_asymmetric p) ->
  set_constraint_string s =
  Ok (map (Normal (pm_central p)) (pm_symmetric p) ++ map (fun rl => Asym (pm_central p) (fst rl) (snd rl)) (pm_asymmetric p)).
Proof.
  intros Hw E Hs Ha. unfold set_constraint_string.
  rewrite (constraints_plusminus p s Hw (typed_dash _ _ (ord_pm_string _ Hw) E)), mk_all_normal, mk_all_asym by assumption. cbn [bind].
  destruct (map (Normal (pm_central p)) (pm_symmetric p) ++ map (fun rl => Asym (pm_central p) (fst rl) (snd rl)) (pm_asymmetric p)) eqn:El;
    [exfalso|reflexivity].
  apply app_eq_nil in El. destruct El as [E1 E2]. apply map_eq_nil in E1. apply map_eq_nil in E2.
  destruct Hw as (_ & Hne & _). unfold pm_symmetric in E1. unfold pm_asymmetric in E2.
  destruct (pm_terms p) as [|[|]]; [congruence|discriminate|discriminate].
Qed.
Theorem C27_zero_error p s : wf_pm_string p -> typed (show_pm_string p) s ->
  Exists (fun e => Qcle e c0) (pm_symmetric p) \/ Exists (fun rl => Qcle (fst rl) c0 \/ Qcle (snd rl) c0) (pm_asymmetric p) ->
  set_constraint_string s = Err ValueError.
Proof.
  intros Hw E H. unfold set_constraint_string. rewrite (constraints_plusminus p s Hw (typed_dash _ _ (ord_pm_string _ Hw) E)).
  destruct H as [H|H]; [now rewrite mk_some_normal|]. rewrite mk_some_asym by assumption.
  destruct (mapM (mkNormal (pm_central p)) (pm_symmetric p)) as [l|e] eqn:Es; cbn [bind]; [reflexivity|].
  apply mapM_err in Es; [now subst|]. intros a e'. apply normal_err.
Qed.

(** C28: the claim does not hold for all strings. *)
Definition usable (s : str) : Prop :=
  match set_constraint_string s with Ok l => l <> [] | Err e => e = ValueError end.
Theorem C28_refuted : ~ forall s, usable s.
Proof.
  intro H. assert (set_constraint_string (lit "1.0 - 0.2") = Err IndexError) as E by (vm_compute; reflexivity).
  specialize (H (lit "1.0 - 0.2")). unfold usable in H. rewrite E in H. discriminate.
Qed.
(** What does hold: the only other outcomes are an IndexError for strings whose first error is
    neither symmetric nor "+ a - b", and an AttributeError for plain numbers written with U+2212. *)
Theorem C28_partial s :
  match set_constraint_string s with
  | Ok l => l <> []
  | Err ValueError => True
  | Err IndexError => exists t c, typed t s /\ ~ In 8722%N t /\
      re_match pattern_plusminus t = Some c /\ ~ starts_with_error (group 2 c)
  | Err AttributeError => In 8722%N s /\ exists t v, typed t s /\ ~ In 8722%N t /\ py_float t = Some v
  | Err _ => False
  end.
Proof.
  pose proof (set_cases s) as H. destruct (dash_typed s) as (H1 & H2).
  destruct (set_constraint_string s) as [l|[]]; try exact H.
  - destruct H as (H & v & E). split; [exact H|]. exists (dash s), v. auto.
  - destruct H as (c & E & Hc). exists (dash s), c. auto.
Qed.
Example C28_minus_first : set_constraint_string (lit "1.36 -0.1 +0.2") = Err IndexError.
Proof. vm_compute. reflexivity. Qed.
Example C28_unicode_minus : set_constraint_string (8722%N :: lit "1.5") = Err AttributeError.
Proof. vm_compute. reflexivity. Qed.

(** C29 *)
Theorem C29_number p : wf_plain p ->
  set_constraint_string (show_plain p) = Ok [Delta (Fin (scaled (pl_sign p) (pl_num p) (pl_exp p)))].
Proof. intro Hw. unfold set_constraint_string, constraints_from_string. now rewrite plain_value. Qed.
Theorem C29_limit l s : wf_limit l -> typed (show_limit l) s ->
  let limit := scaled (l_sign l) (l_num l) (l_exp l) in
  let level := Qcdiv (number_value (l_cl l)) (Z2Qc 100) in
  set_constraint_string s =
  if Qclt_le_dec c0 limit then
    (if Qclt_le_dec level c0 then Err ValueError
     else if Qclt_le_dec level c1 then Ok [UpperLimit limit level] else Err ValueError)
  else Err ValueError.
Proof.
  intros Hw E. cbv zeta. unfold set_constraint_string. rewrite (constraints_limit l s Hw (typed_dash _ _ (ord_limit _ Hw) E)). unfold mkUpperLimit, Qcleb, Qcltb.
  set (x := scaled (l_sign l) (l_num l) (l_exp l)). set (cl := Qcdiv (number_value (l_cl l)) (Z2Qc 100)).
  destruct (Qclt_le_dec cl c0) as [H1|H1].
  - rewrite orb_true_r. destruct (Qclt_le_dec c0 x); reflexivity.
  - rewrite orb_false_r. destruct (Qclt_le_dec cl c1) as [H2|H2].
    + destruct (Qclt_le_dec c1 cl) as [H3|H3]; [exfalso; exact (Qclt_not_le _ _ H3 (Qclt_le_weak _ _ H2))|].
      destruct (Qclt_le_dec c0 x); cbn [negb bind]; [|reflexivity].
      destruct (Qc_eq_bool cl c1) eqn:Ee; [|reflexivity]. apply Qc_eq_bool_correct in Ee. rewrite Ee in H2. exfalso.
      exact (Qclt_not_le _ _ H2 (Qcle_refl _)).
    + destruct (Qclt_le_dec c0 x); cbn [negb bind].
      * destruct (Qclt_le_dec c1 cl) as [H3|H3]; [reflexivity|]. cbn [bind].
        assert (Ee : cl = c1) by (now apply Qcle_antisym). rewrite Ee. now destruct (Qc_eq_bool c1 c1) eqn:Eq; [|exfalso; revert Eq; vm_compute; discriminate].
      * destruct (Qclt_le_dec c1 cl); reflexivity.
Qed.
(** a range gives the uniform distribution whose ends are exactly those written *)
Theorem C29_range r s : wf_range r -> typed (show_range r) s ->
  if Qclt_le_dec (range_hi r) (range_lo r) then set_constraint_string s = Err ValueError
  else exists cv half, set_constraint_string s = Ok [Uniform cv half] /\
       Qcminus cv half = Qcmult (range_lo r) (range_scale r) /\ Qcplus cv half = Qcmult (range_hi r) (range_scale r).
Proof.
  intros Hw E. unfold set_constraint_string. rewrite (constraints_range r s Hw (typed_dash _ _ (ord_range _ Hw) E)). unfold Qcltb.
  destruct (Qclt_le_dec (range_hi r) (range_lo r)); [reflexivity|]. cbn [bind].
  eexists _, _. split; [reflexivity|].
  assert (E2 : Z2Qc 2 <> 0%Qc). { intro H. rewrite <- c0_eq in H. now apply Z2Qc_inj in H. }
  assert (E3 : Z2Qc 2 = Qcplus 1 1). { apply Qc_is_canon. reflexivity. }
  rewrite E3 in *. split; field; exact E2.
Qed.
Theorem C29_lognormal f s : wf_factor f -> typed (show_factor f) s ->
  let cv := scaled (f_sign f) (f_num f) (f_exp f) in
  set_constraint_string s =
  if Qc_eq_dec cv c0 then Err ValueError
  else if Qclt_le_dec c1 (number_value (f_factor f)) then Ok [LogNormal cv (number_value (f_factor f))] else Err ValueError.
Proof.
  intros Hw E. cbv zeta. unfold set_constraint_string. rewrite (constraints_factor f s Hw (typed_dash _ _ (ord_factor _ Hw) E)). unfold mkLogNormal, Qcleb, Qcltb.
  set (cv := scaled (f_sign f) (f_num f) (f_exp f)). unfold Qc_eq_bool.
  destruct (Qc_eq_dec cv c0); [reflexivity|]. destruct (Qclt_le_dec c1 (number_value (f_factor f))); reflexivity.
Qed.

(** C72: accepted strings may lose part of what they say: the trailing "- 0.5" and "-0.1 +0.2"
    are accepted by the pattern of the whole string, but found neither as symmetric nor as
    asymmetric errors. *)
Theorem C72_refuted :
  set_constraint_string (lit "1.36 +0.3 -0.1 - 0.5") = set_constraint_string (lit "1.36 +0.3 -0.1") /\
  set_constraint_string (lit "1.36 +- 0.3 -0.1 +0.2") = set_constraint_string (lit "1.36 +- 0.3") /\
  exists l, set_constraint_string (lit "1.36 +- 0.3") = Ok l.
Proof. split; [|split; [|eexists]]; vm_compute; reflexivity. Qed.

(** ** The hypotheses are met *)
Lemma forallb_Forall (f : N -> bool) w : forallb f w = true -> Forall (fun c => f c = true) w.
Proof. rewrite forallb_forall. intro H. apply Forall_forall. exact H. Qed.
Definition ex_bs : bracket_string :=
  mkBS (mkStart [32%N] true [] true (mkNum (lit "1") (Some (lit "67"))) [32%N])
       [mkBr [] (mkNum (lit "3") None) [] []; mkBr [] (mkNum (lit "0") (Some (lit "5"))) [] []] true
       (mkTail [32%N] true [32%N] (Some (mkPow (lit "10^") true (Some true) (lit "3") true)) false).
Example C26_example : wf_bracket_string ex_bs /\ show_bracket_string ex_bs = lit " (-1.67 (3)(0.5)) * 10^(-3)" /\
  Forall (fun e => Qclt c0 (bs_error ex_bs e)) (bs_errors ex_bs).
Proof.
  split; [|split; [vm_compute; reflexivity|repeat constructor; vm_compute; reflexivity]].
  unfold wf_bracket_string, wf_start, wf_tail, wf_power. cbn. repeat split; try discriminate; repeat constructor; try discriminate; tauto.
Qed.
Definition ex_pm : pm_string :=
  mkPM (mkStart [] true [] false (mkNum (lit "1") (Some (lit "67"))) [32%N])
       [Sym (lit "+-") [32%N] (mkNum (lit "0") (Some (lit "3"))) [32%N];
        Asy [32%N] (mkNum (lit "0") (Some (lit "1"))) [32%N] [32%N] (mkNum (lit "0") (Some (lit "2"))) []] true
       (mkTail [32%N] false [] (Some (mkPow (lit "e") false (Some true) (lit "3") false)) false).
Example C27_example : wf_pm_string ex_pm /\ show_pm_string ex_pm = lit "(1.67 +- 0.3 + 0.1 - 0.2) e-3" /\
  Forall (Qclt c0) (pm_symmetric ex_pm) /\ Forall (fun rl => Qclt c0 (fst rl) /\ Qclt c0 (snd rl)) (pm_asymmetric ex_pm).
Proof.
  split; [|split; [vm_compute; reflexivity|split; repeat constructor; vm_compute; reflexivity]].
  unfold wf_pm_string, wf_start, wf_tail, wf_power. cbn.
  assert (Hd : forall w, forallb is_digit w = true -> digits w) by (intros w; apply forallb_Forall).
  repeat split; try discriminate; repeat match goal with |- spaces _ => repeat constructor | |- digits _ => apply Hd; reflexivity
    | |- Forall _ (_ :: _) => constructor | |- Forall _ [] => constructor | |- _ /\ _ => split end; try discriminate; cbn; try tauto.
  - split; [tauto|]. repeat split; try discriminate; repeat constructor.
  - repeat split; try discriminate; repeat constructor.
Qed.
Definition ex_lim : limit_string :=
  mkLim [] [32%N] None (mkNum (lit "5") (Some (lit "3"))) (Some (mkExpo 101 (Some true) (lit "8"))) [32%N] [32%N]
        (mkNum (lit "95") None) [] [32%N] [46%N] [46%N].
Example C29_limit_example : wf_limit ex_lim /\ show_limit ex_lim = lit "< 5.3e-8 @ 95% C.L." /\
  exists l, set_constraint_string (lit "< 5.3e-8 @ 95% C.L.") = Ok l.
Proof.
  split; [|split; [vm_compute; reflexivity|eexists; vm_compute; reflexivity]].
  unfold wf_limit. cbn. repeat split; try discriminate; repeat constructor; try discriminate; tauto.
Qed.
Definition ex_range : range_string :=
  mkRange [] [] true (mkNum (lit "1") None) [] None [] [32%N] false (mkNum (lit "5") None) [] None []
          (mkTail [32%N] false [] (Some (mkPow (lit "1e") false (Some true) (lit "3") false)) false).
Example C29_range_example : wf_range ex_range /\ show_range ex_range = lit "[-1, 5] 1e-3" /\
  exists l, set_constraint_string (lit "[-1, 5] 1e-3") = Ok l.
Proof.
  split; [|split; [vm_compute; reflexivity|eexists; vm_compute; reflexivity]].
  unfold wf_range, wf_tail, wf_power. cbn. repeat split; try discriminate; repeat constructor; try discriminate; tauto.
Qed.
Definition ex_fac : factor_string :=
  mkFac [] None (mkNum (lit "1") (Some (lit "2"))) (Some (mkExpo 101 (Some true) (lit "3"))) [32%N] (lit "*/") [32%N]
        (mkNum (lit "1") (Some (lit "5"))) false.
Example C29_lognormal_example : wf_factor ex_fac /\ show_factor ex_fac = lit "1.2e-3 */ 1.5" /\
  exists l, set_constraint_string (lit "1.2e-3 */ 1.5") = Ok l.
Proof.
  split; [|split; [vm_compute; reflexivity|eexists; vm_compute; reflexivity]].
  unfold wf_factor. cbn. repeat split; try discriminate; repeat constructor; try discriminate; tauto.
Qed.
Definition ex_plain : plain := mkPlain [32%N] (Some true) (mkNum (lit "1") (Some (lit "5"))) (Some (mkExpo 101 None (lit "3"))) [32%N].
Example C29_plain_example : wf_plain ex_plain /\ show_plain ex_plain = lit " -1.5e3 ".
Proof.
  split; [|vm_compute; reflexivity]. unfold wf_plain. cbn. repeat split; try discriminate; repeat constructor; try discriminate; tauto.
Qed.

Print Assumptions C26_powers.
Print Assumptions C26_brackets.
Print Assumptions C26_zero_error.
Print Assumptions C27_plusminus.
Print Assumptions C27_zero_error.
Print Assumptions C28_refuted.
Print Assumptions C28_partial.
Print Assumptions C29_number.
Print Assumptions C29_limit.
Print Assumptions C29_range.
Print Assumptions C29_lognormal.
Print Assumptions C72_refuted.
