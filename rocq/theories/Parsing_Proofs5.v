From Coq Require Import QArith Qcanon.
From Verif Require Import Base BaseLemmas Regex Parsing_Model Parsing_Spec Parsing_Proofs Parsing_Proofs2 Parsing_Proofs3 Parsing_Proofs4.
Close Scope Q_scope. Close Scope Qc_scope.

(** ** C27 *)
Lemma pm_string_parts p : wf_pm_string p -> exists x r, In x [177; 92; 43]%N /\
  show_pm_string p = show_start (pm_start p) ++ x :: r.
Proof.
  intros (_ & Hne & Ht & _). unfold show_pm_string.
  destruct (terms_head (pm_terms p) (when (pm_close p) 41 ++ show_tail (pm_tail p)) Ht Hne) as [x [r [E Hx]]].
  exists x, r. split; [exact Hx|]. now rewrite E.
Qed.
Lemma notin_pm_string x p : wf_pm_string p -> is_space x = false -> is_digit x = false ->
  ~ In x [43; 45; 40; 41; 42; 46; 94; 101; 69; 177; 92; 112; 109]%N -> ~ In x (show_pm_string p).
Proof.
  intros (H1 & H2 & H3 & H4 & H5 & _) Hs Hd Hn. cbn [In] in Hn. unfold show_pm_string. rewrite !in_app_iff.
  intros [Hi|[Hi|[Hi|Hi]]].
  - revert Hi. apply notin_start; auto. cbn. tauto.
  - revert Hi. apply notin_concat. intros e He. rewrite Forall_forall in H3. apply notin_term; auto. cbn. tauto.
  - revert Hi. apply notin_when. intros ->. tauto.
  - revert Hi. apply notin_tail; auto. cbn. tauto.
Qed.
Lemma no_float_pm p : wf_pm_string p -> py_float (show_pm_string p) = None.
Proof.
  intro Hw. destruct (pm_string_parts p Hw) as [x [r [Hx ->]]].
  apply no_float_start; [apply Hw| | |]; cbn [In] in *; intuition (subst; try reflexivity; discriminate).
Qed.
Lemma no_brackets_pm p : wf_pm_string p -> re_match pattern_brackets (show_pm_string p) = None.
Proof.
  intro Hw. destruct (pm_string_parts p Hw) as [x [r [Hx ->]]].
  apply no_brackets_start; [apply Hw|]. cbn [In] in Hx. intuition (subst; reflexivity).
Qed.
Lemma pm_terms_match ts : Forall wf_term ts -> ts <> [] ->
  is_some (re_match pattern_brackets_err (concat (map show_term ts))) = false /\
  is_some (re_match pattern_symmetric_err (concat (map show_term ts))) ||
  is_some (re_match pattern_asymmetric_err (concat (map show_term ts))) = true.
Proof.
  intros H Hne. split.
  - destruct (terms_head ts [] H Hne) as [x [r [E Hx]]]. rewrite app_nil_r in E. rewrite E.
    enough (re_match pattern_brackets_err (x :: r) = None) as -> by reflexivity.
    unfold re_match, pattern_brackets_err. cbn [cat]. apply nomatch_Cat, nomatch_ch. intros ->.
    cbn in Hx. intuition discriminate.
  - destruct ts as [|t ts]; [congruence|]. inversion H as [|? ? Ht Hts]; subst. cbn [map concat].
    destruct t as [mk a e b|a r b c l d]; cbn [wf_term show_term] in *.
    + destruct Ht as (Hm & Ha & He & Hb).
      replace ((mk ++ a ++ show_number e ++ b) ++ concat (map show_term ts)) with
              ((mk ++ a ++ show_number e) ++ b ++ concat (map show_term ts)) by (rewrite <- !app_assoc; reflexivity).
      erewrite takes_match; [reflexivity|]. apply takes_sym; auto. apply space_no_num; [assumption|]. now apply terms_no_num.
    + destruct Ht as (H1 & H2 & H3 & H4 & H5 & H6). apply orb_true_iff. right.
      replace (([43%N] ++ a ++ show_number r ++ b ++ [45%N] ++ c ++ show_number l ++ d) ++ concat (map show_term ts)) with
        (([43%N] ++ a ++ show_number r ++ b ++ [45%N] ++ c ++ show_number l ++ []) ++ d ++ concat (map show_term ts))
        by (cbn [app]; rewrite <- !app_assoc; cbn [app]; rewrite <- !app_assoc; reflexivity).
      erewrite takes_match; [reflexivity|]. apply takes_asy; auto. apply space_no_num; [assumption|]. now apply terms_no_num.
Qed.
Lemma sym_values f ts : Forall wf_term ts ->
  mapM (fun g => do e <- float_of (group 1 g); Ok (Qcmult e f)) (flat_map sym_caps ts) =
  Ok (flat_map (fun t => match t with Sym _ _ e _ => [Qcmult (number_value e) f] | Asy _ _ _ _ _ _ => [] end) ts).
Proof.
  intro H. induction H as [|t ts Ht Hts IH]; [reflexivity|]. cbn [flat_map].
  destruct t as [mk a e b|a r b c l d]; cbn [sym_caps app]; [|exact IH]. destruct Ht as (Hm & Ha & He & Hb). cbn [mapM].
  change (group 1 [(1, a ++ show_number e)]) with (a ++ show_number e). rewrite float_of_spaces by assumption. cbn [bind].
  rewrite IH. reflexivity.
Qed.
Lemma asy_values f ts : Forall wf_term ts ->
  mapM (fun g => do r <- float_of (group 1 g); do l <- float_of (group 2 g); Ok (Qcmult r f, Qcmult l f)) (flat_map asy_caps ts) =
  Ok (flat_map (fun t => match t with
                     | Asy _ r _ _ l _ => [(Qcmult (number_value r) f, Qcmult (number_value l) f)]
                     | Sym _ _ _ _ => []
                     end) ts).
Proof.
  intro H. induction H as [|t ts Ht Hts IH]; [reflexivity|]. cbn [flat_map].
  destruct t as [mk a e b|a r b c l d]; cbn [asy_caps app]; [exact IH|]. destruct Ht as (H1 & H2 & H3 & H4 & H5 & H6). cbn [mapM].
  change (group 1 [(1, show_number r); (2, show_number l)]) with (show_number r).
  change (group 2 [(1, show_number r); (2, show_number l)]) with (show_number l).
  rewrite (float_of_spaces [] r (Forall_nil _) H2 : float_of (show_number r) = _). cbn [bind].
  rewrite (float_of_spaces [] l (Forall_nil _) H5 : float_of (show_number l) = _). cbn [bind].
  rewrite IH. reflexivity.
Qed.
Lemma errors_plusminus p : wf_pm_string p ->
  errors_from_string (show_pm_string p) = Ok (mkErrors (pm_central p) (pm_symmetric p) (pm_asymmetric p)).
Proof.
  intros Hw. unfold errors_from_string. rewrite no_brackets_pm, match_plusminus by exact Hw.
  destruct Hw as (H1 & H2 & H3 & H4 & H5 & H6). pose proof H1 as (_ & _ & Hn & _). pose proof H4 as (_ & _ & Hp & _).
  match goal with |- context [final_caps ?a ?b ?c] =>
    assert (G1 : group 1 (final_caps a b c) = a) by (unfold group; now rewrite final_1);
    assert (G2 : group 2 (final_caps a b c) = b) by (unfold group; now rewrite final_2) end.
  rewrite G1, G2, final_3. unfold pow_group. rewrite overall_opt by assumption. cbn [bind].
  rewrite float_of_show by assumption. cbn [bind].
  destruct (pm_terms_match (pm_terms p) H3 H2) as [E1 E2]. rewrite E1, E2.
  rewrite findall_sym, findall_asy by assumption. rewrite sym_values by assumption. cbn [bind].
  rewrite asy_values by assumption. reflexivity.
Qed.
Lemma constraints_plusminus p s : wf_pm_string p -> dash s = show_pm_string p ->
  constraints_from_string s = do sy <- mapM (mkNormal (pm_central p)) (pm_symmetric p);
    do asy <- mapM (fun rl => mkAsym (pm_central p) (fst rl) (snd rl)) (pm_asymmetric p); Ok (PDs (sy ++ asy)).
Proof.
  intros Hw E. rewrite dispatch; rewrite E; [|now apply no_float_pm]. cbv zeta.
  rewrite no_upper, no_range, no_timesby; cycle 1.
  { apply notin_pm_string; auto. cbn. intuition discriminate. }
  { apply notin_pm_string; auto. cbn. intuition discriminate. }
  { apply notin_pm_string; auto. cbn. intuition discriminate. }
  cbn [is_some]. rewrite no_brackets_pm, match_plusminus by exact Hw. cbn [is_some orb]. rewrite errors_plusminus by exact Hw.
  reflexivity.
Qed.
Lemma mk_all_asym cv l : Forall (fun rl => Qclt c0 (fst rl) /\ Qclt c0 (snd rl)) l ->
  mapM (fun rl => mkAsym cv (fst rl) (snd rl)) l = Ok (map (fun rl => Asym cv (fst rl) (snd rl)) l).
Proof.
  intro H. apply mapM_all_Ok. intros e He. rewrite Forall_forall in H. destruct (H e He) as [Ha Hb].
  unfold mkAsym, Qcleb, Qcltb. destruct (Qclt_le_dec c0 (fst e)) as [_|Hc]; [|exfalso; exact (Qclt_not_le _ _ Ha Hc)].
  destruct (Qclt_le_dec c0 (snd e)) as [_|Hc]; [|exfalso; exact (Qclt_not_le _ _ Hb Hc)]. reflexivity.
Qed.
Lemma mk_some_asym cv l : Exists (fun rl => Qcle (fst rl) c0 \/ Qcle (snd rl) c0) l ->
  mapM (fun rl => mkAsym cv (fst rl) (snd rl)) l = Err ValueError.
Proof.
  intro H. assert (D : forall e : Qc * Qc, mkAsym cv (fst e) (snd e) = Err ValueError \/ mkAsym cv (fst e) (snd e) = Ok (Asym cv (fst e) (snd e))).
  { intro e. unfold mkAsym. destruct (Qcleb (fst e) c0 || Qcleb (snd e) c0); auto. }
  induction H as [e l H|e l H IH]; cbn [mapM].
  - enough (mkAsym cv (fst e) (snd e) = Err ValueError) as -> by reflexivity. unfold mkAsym, Qcleb, Qcltb.
    destruct (Qclt_le_dec c0 (fst e)) as [Ha|_]; [|reflexivity]. destruct (Qclt_le_dec c0 (snd e)) as [Hb|_]; [|reflexivity].
    exfalso. destruct H as [H|H]; [exact (Qclt_not_le _ _ Ha H)|exact (Qclt_not_le _ _ Hb H)].
  - destruct (D e) as [-> | ->]; cbn [bind]; [reflexivity|]. now rewrite IH.
Qed.

(** ** C29: plain numbers *)
Lemma plain_value p : wf_plain p -> py_float (show_plain p) = Some (Fin (scaled (pl_sign p) (pl_num p) (pl_exp p))).
Proof.
  intros (H1 & H2 & H3 & H4). unfold show_plain. rewrite (app_assoc (show_sign _ ++ _)). now apply float_show.
Qed.

(** ** Upper limits *)
Definition dots : re := Star (Or (ch 46) (Chr Space)).
Lemma takes_dots t rest c : dotted t -> match rest with [] => True | x :: _ => x <> 46%N /\ is_space x = false end -> takes dots t rest c c.
Proof.
  intros Ht Hr. unfold dots.
  assert (Ec : concat (map (fun x => [x]) t) = t) by (clear; induction t as [|x t IH]; [reflexivity|]; cbn; now rewrite IH).
  rewrite <- Ec at 1. apply takes_Star.
  - apply nomatch_Or; [apply nomatch_ch; destruct rest; [exact I|apply Hr]|apply nomatch_Chr; destruct rest; [exact I|apply Hr]].
  - clear Ec Hr. induction Ht as [|x t Hx Ht IH]; [reflexivity|]. cbn [map chain]. split; [discriminate|]. exists c. split; [|exact IH].
    destruct (N.eq_dec x 46) as [->|Hne]; [apply takes_OrL, takes_ch|]. destruct Hx as [Hx|Hx]; [congruence|].
    apply takes_OrR; [apply nomatch_ch; exact Hne|]. apply takes_Chr. exact Hx.
Qed.
Lemma sign_num_head_space s n rest : wf_number n -> head_not Space ((show_sign s ++ show_number n) ++ rest).
Proof.
  intro Hn. destruct (number_head n Hn) as [d [r [E Hd]]]. rewrite E. destruct s as [[|]|]; cbn; try reflexivity.
  now apply digit_not_space.
Qed.
Lemma expo_no_num o rest : opt_wf wf_expo o -> no_num rest -> no_num (opt_show show_expo o ++ rest).
Proof.
  intros Ho Hr. destruct o as [e|]; cbn [opt_show app]; [|exact Hr]. destruct Ho as (Hc & _). unfold show_expo. cbn [app no_num].
  destruct Hc as [Hc|[Hc|[]]]; rewrite <- Hc; split; try reflexivity; discriminate.
Qed.
Lemma no_num_digit s : no_num s -> head_not Digit s.
Proof. destruct s; [intros; exact I|]. intros [H _]. exact H. Qed.
Lemma space_not_eE a x r : spaces a -> ~ In x eE -> match a ++ x :: r with [] => True | y :: _ => ~ In y eE end.
Proof.
  intros Ha Hx. destruct a as [|y a]; [exact Hx|]. inversion Ha as [|? ? Hy]; subst. cbn. intuition (subst; discriminate).
Qed.

Definition lim_caps (l : limit_string) : caps :=
  od_set 3 (show_number (l_cl l)) (set_opt 2 (option_map show_expo (l_exp l)) (od_set 1 (show_sign (l_sign l) ++ show_number (l_num l)) [])).
Lemma match_limit l : wf_limit l -> re_match pattern_upperlimit (show_limit l) = Some (lim_caps l).
Proof.
  intros (H1 & H2 & H3 & H4 & H5 & H6 & H7 & H8 & H9 & H10 & H11).
  rewrite <- (app_nil_r (show_limit l)). apply takes_match. unfold show_limit.
  rewrite <- (app_nil_r (l_dots2 l)). unfold pattern_upperlimit. cbn [cat].
  eapply takes_Cat. { apply takes_sp; [assumption|reflexivity]. }
  eapply takes_Cat; [apply takes_ch|].
  eapply takes_Cat. { apply takes_sp; [assumption|]. rewrite <- app_assoc. now apply sign_num_head_space. }
  eapply takes_Cat.
  { apply takes_Grp, takes_sign_unum; [assumption|]. rewrite <- !app_assoc. apply expo_no_num; [assumption|].
    apply space_no_num; [assumption|]. cbn. split; [reflexivity|discriminate]. }
  eapply takes_Cat.
  { apply takes_opt_expo; [assumption| |]; rewrite <- !app_assoc.
    - apply no_num_digit, space_no_num; [assumption|]. cbn. split; [reflexivity|discriminate].
    - intros _. apply space_not_eE; [assumption|]. cbn. intuition discriminate. }
  eapply takes_Cat. { apply takes_sp; [assumption|reflexivity]. }
  eapply takes_Cat; [apply takes_ch|].
  eapply takes_Cat. { apply takes_sp; [assumption|]. rewrite <- !app_assoc. now apply number_head_space. }
  eapply takes_Cat.
  { apply takes_Grp, takes_unum; [assumption|]. rewrite <- !app_assoc. apply space_no_num; [assumption|]. cbn. split; [reflexivity|discriminate]. }
  eapply takes_Cat. { apply takes_sp; [assumption|reflexivity]. }
  eapply takes_Cat; [apply takes_ch|].
  eapply takes_Cat. { apply takes_sp; [assumption|reflexivity]. }
  eapply takes_Cat; [apply takes_ch|].
  eapply takes_Cat. { apply takes_dots; [assumption|]. cbn. split; [discriminate|reflexivity]. }
  eapply takes_Cat; [apply takes_ch|].
  eapply takes_Cat. { apply takes_dots; [assumption|exact I]. }
  apply (takes_end false).
Qed.
Lemma constraints_limit l s : wf_limit l -> dash s = show_limit l ->
  constraints_from_string s = do d <- mkUpperLimit (scaled (l_sign l) (l_num l) (l_exp l)) (Qcdiv (number_value (l_cl l)) (Z2Qc 100)); Ok (PDs [d]).
Proof.
  intros Hw E. pose proof (match_limit l Hw) as Hm. destruct Hw as (H1 & H2 & H3 & H4 & H5 & H6 & H7 & H8 & H9 & H10 & H11).
  rewrite dispatch; rewrite E.
  - cbv zeta. rewrite Hm. cbn [is_some]. unfold limit_from_string. rewrite Hm.
    assert (G : group 1 (lim_caps l) = show_sign (l_sign l) ++ show_number (l_num l) /\
                od_get 2 (lim_caps l) = option_map show_expo (l_exp l) /\ group 3 (lim_caps l) = show_number (l_cl l)).
    { unfold lim_caps. destruct (l_exp l); repeat split. }
    destruct G as (-> & -> & ->). rewrite float_expo_show by assumption. cbn [bind].
    rewrite (float_of_spaces [] (l_cl l) (Forall_nil _) H7 : float_of (show_number (l_cl l)) = _). reflexivity.
  - unfold show_limit. cbn [app]. apply no_float_head; auto. cbn. intuition discriminate.
Qed.

(** ** Ranges *)
Definition rng_caps (r : range_string) : caps :=
  set_opt 5 (pow_group (t_pow (r_tail r)))
   (set_opt 4 (option_map show_expo (r_exp2 r)) (od_set 3 (show_sign (neg (r_neg2 r)) ++ show_number (r_num2 r))
    (set_opt 2 (option_map show_expo (r_exp1 r)) (od_set 1 (show_sign (neg (r_neg1 r)) ++ show_number (r_num1 r)) [])))).
Lemma expo_head_space e rest : wf_expo e -> head_not Space (show_expo e ++ rest).
Proof. intros (Hc & _). unfold show_expo. cbn [app head_not]. destruct Hc as [Hc|[Hc|[]]]; rewrite <- Hc; reflexivity. Qed.
Lemma space_digit_head a y r : spaces a -> is_digit y = false -> head_not Digit (a ++ y :: r).
Proof.
  intros Ha Hy. destruct a as [|x a]; [exact Hy|]. inversion Ha as [|? ? Hx]; subst. cbn.
  destruct (is_digit x) eqn:E; [|reflexivity]. apply digit_not_space in E. congruence.
Qed.
Lemma match_range r : wf_range r -> re_match pattern_range (show_range r) = Some (rng_caps r).
Proof.
  intros (H1 & H2 & H3 & H4 & H5 & H6 & H7 & H8 & H9 & H10 & H11 & H12 & H13 & H14).
  assert (E : show_range r = (r_sp1 r ++ [91%N] ++ r_sp2 r ++ (show_sign (neg (r_neg1 r)) ++ show_number (r_num1 r)) ++ r_sp3 r ++
  opt_show show_expo (r_exp1 r) ++ r_sp4 r ++ [44%N] ++ r_sp5 r ++ (show_sign (neg (r_neg2 r)) ++ show_number (r_num2 r)) ++
  r_sp6 r ++ opt_show show_expo (r_exp2 r) ++ r_sp7 r ++ [93%N] ++
   t_sp1 (r_tail r) ++ when (t_star (r_tail r)) 42 ++ t_sp2 (r_tail r) ++ opt_show show_power (t_pow (r_tail r)) ++ []) ++ when (t_nl (r_tail r)) 10).
  { unfold show_range. rewrite show_tail_eq. rewrite <- !app_assoc. reflexivity. }
  rewrite E. apply takes_match. unfold pattern_range. cbn [cat].
  eapply takes_Cat. { apply takes_sp; [assumption|reflexivity]. }
  eapply takes_Cat; [apply takes_ch|].
  eapply takes_Cat. { apply takes_sp; [assumption|]. rewrite <- app_assoc. now apply sign_num_head_space. }
  eapply takes_Cat.
  { apply takes_Grp, takes_neg_unum; [assumption|]. rewrite <- !app_assoc. apply space_no_num; [assumption|]. apply expo_no_num; [assumption|].
    apply space_no_num; [assumption|]. cbn. split; [reflexivity|discriminate]. }
  eapply takes_Cat.
  { apply takes_sp; [assumption|]. rewrite <- !app_assoc. destruct (r_exp1 r) as [e|]; cbn [opt_show].
    - now apply expo_head_space.
    - rewrite H13 by reflexivity. reflexivity. }
  eapply takes_Cat.
  { apply takes_opt_expo; [assumption| |]; rewrite <- !app_assoc.
    - now apply space_digit_head.
    - intros _. apply space_not_eE; [assumption|]. cbn. intuition discriminate. }
  eapply takes_Cat. { apply takes_sp; [assumption|reflexivity]. }
  eapply takes_Cat; [apply takes_ch|].
  eapply takes_Cat. { apply takes_sp; [assumption|]. rewrite <- app_assoc. now apply sign_num_head_space. }
  eapply takes_Cat.
  { apply takes_Grp, takes_neg_unum; [assumption|]. rewrite <- !app_assoc. apply space_no_num; [assumption|]. apply expo_no_num; [assumption|].
    apply space_no_num; [assumption|]. cbn. split; [reflexivity|discriminate]. }
  eapply takes_Cat.
  { apply takes_sp; [assumption|]. rewrite <- !app_assoc. destruct (r_exp2 r) as [e|]; cbn [opt_show].
    - now apply expo_head_space.
    - rewrite H14 by reflexivity. reflexivity. }
  eapply takes_Cat.
  { apply takes_opt_expo; [assumption| |]; rewrite <- !app_assoc.
    - now apply space_digit_head.
    - intros _. apply space_not_eE; [assumption|]. cbn. intuition discriminate. }
  eapply takes_Cat. { apply takes_sp; [assumption|reflexivity]. }
  eapply takes_Cat; [apply takes_ch|].
  apply (takes_tail 5 (r_tail r)). assumption.
Qed.
Lemma no_limit_range r : wf_range r -> re_match pattern_upperlimit (show_range r) = None.
Proof.
  intros (H1 & H2 & H3 & H4 & H5 & H6 & H7 & H8 & H9 & H10 & H11 & H12 & H13 & H14). apply no_upper.
  assert (He : forall o, opt_wf wf_expo o -> ~ In 60%N (opt_show show_expo o)).
  { intros [e|] Ho; [|cbn; tauto]. destruct Ho as (Hc & _ & Hd). cbn [opt_show]. unfold show_expo. intros [Hi|Hi].
    - rewrite Hi in Hc. cbn in Hc. intuition discriminate.
    - apply in_app_or in Hi. destruct Hi as [Hi|Hi]; revert Hi; [apply notin_sign; cbn; intuition discriminate|now apply notin_digits]. }
  unfold show_range. rewrite !in_app_iff. intro Hi.
  repeat match type of Hi with _ \/ _ => destruct Hi as [Hi|Hi] end; revert Hi;
    first [ now apply notin_spaces
          | apply notin_sign; cbn; intuition discriminate
          | apply notin_number; [assumption|reflexivity|discriminate]
          | apply notin_tail; [assumption|reflexivity|reflexivity|cbn; intuition discriminate]
          | apply He; assumption
          | cbn; intuition discriminate ].
Qed.
Lemma constraints_range r s : wf_range r -> dash s = show_range r ->
  constraints_from_string s =
  if Qcltb (range_hi r) (range_lo r) then Err ValueError
  else Ok (PDs [Uniform (Qcdiv (Qcplus (Qcmult (range_scale r) (range_hi r)) (Qcmult (range_scale r) (range_lo r))) (Z2Qc 2))
                        (Qcdiv (Qcminus (Qcmult (range_scale r) (range_hi r)) (Qcmult (range_scale r) (range_lo r))) (Z2Qc 2))]).
Proof.
  intros Hw E. pose proof (match_range r Hw) as Hm. pose proof (no_limit_range r Hw) as Hnl.
  destruct Hw as (H1 & H2 & H3 & H4 & H5 & H6 & H7 & H8 & H9 & H10 & H11 & H12 & H13 & H14).
  rewrite dispatch; rewrite E.
  - cbv zeta. rewrite Hnl, Hm. cbn [is_some]. unfold range_from_string. rewrite Hm.
    assert (G : group 1 (rng_caps r) = show_sign (neg (r_neg1 r)) ++ show_number (r_num1 r) /\
                od_get 2 (rng_caps r) = option_map show_expo (r_exp1 r) /\
                group 3 (rng_caps r) = show_sign (neg (r_neg2 r)) ++ show_number (r_num2 r) /\
                od_get 4 (rng_caps r) = option_map show_expo (r_exp2 r) /\ od_get 5 (rng_caps r) = pow_group (t_pow (r_tail r))).
    { unfold rng_caps. destruct (r_exp1 r), (r_exp2 r), (t_pow (r_tail r)); repeat split. }
    destruct G as (-> & -> & -> & -> & ->). rewrite !float_expo_show by assumption. cbn [bind].
    fold (range_lo r). fold (range_hi r). destruct (Qcltb (range_hi r) (range_lo r)); [reflexivity|].
    unfold pow_group. rewrite overall_opt by apply H12. reflexivity.
  - unfold show_range. cbn [app]. apply no_float_head; auto. cbn. intuition discriminate.
Qed.

(** ** Lognormal *)
Definition fac_caps (f : factor_string) : caps :=
  od_set 3 (show_number (f_factor f)) (set_opt 2 (option_map show_expo (f_exp f)) (od_set 1 (show_sign (f_sign f) ++ show_number (f_num f)) [])).
Lemma match_factor f : wf_factor f -> re_match pattern_timesby (show_factor f) = Some (fac_caps f).
Proof.
  intros (H1 & H2 & H3 & H4 & H5 & H6 & H7).
  assert (E : show_factor f = (f_sp1 f ++ (show_sign (f_sign f) ++ show_number (f_num f)) ++ opt_show show_expo (f_exp f) ++ f_sp2 f ++ f_op f ++
  f_sp3 f ++ show_number (f_factor f) ++ []) ++ when (f_nl f) 10).
  { unfold show_factor. rewrite <- !app_assoc. reflexivity. }
  rewrite E. apply takes_match. unfold pattern_timesby. cbn [cat].
  assert (Ho : exists y z, f_op f = y :: z /\ In y [42; 47]%N).
  { destruct H5 as [<-|[<-|[]]]; eexists _, _; (split; [reflexivity|]); cbn; tauto. }
  destruct Ho as [y [z [Ho Hy]]].
  assert (Hy' : is_space y = false /\ is_digit y = false /\ y <> 46%N /\ ~ In y eE).
  { destruct Hy as [<-|[<-|[]]]; repeat split; try reflexivity; try discriminate; cbn; intuition discriminate. }
  destruct Hy' as (Y1 & Y2 & Y3 & Y4).
  eapply takes_Cat. { apply takes_sp; [assumption|]. rewrite <- app_assoc. now apply sign_num_head_space. }
  eapply takes_Cat.
  { apply takes_Grp, takes_sign_unum; [assumption|]. rewrite <- !app_assoc. apply expo_no_num; [assumption|].
    apply space_no_num; [assumption|]. rewrite Ho. cbn. auto. }
  eapply takes_Cat.
  { apply takes_opt_expo; [assumption| |]; rewrite <- !app_assoc, Ho; cbn [app].
    - now apply space_digit_head.
    - intros _. now apply space_not_eE. }
  eapply takes_Cat. { apply takes_sp; [assumption|]. rewrite <- !app_assoc, Ho. exact Y1. }
  eapply takes_Cat with (c1 := (set_opt 2 (option_map show_expo (f_exp f)) (od_set 1 (show_sign (f_sign f) ++ show_number (f_num f)) []))).
  { destruct H5 as [<-|[<-|[]]]; [apply takes_OrL, takes_word|]. apply takes_OrR; [intros X c' k; reflexivity|]. apply takes_word. }
  eapply takes_Cat. { apply takes_sp; [assumption|]. rewrite <- !app_assoc. now apply number_head_space. }
  eapply takes_Cat; [|apply takes_end]. apply takes_Grp, takes_unum; [assumption|].
  destruct (f_nl f); cbn; [split; [reflexivity|discriminate]|exact I].
Qed.
Lemma notin_factor x f : wf_factor f -> is_space x = false -> is_digit x = false -> ~ In x [42; 47; 43; 45; 46; 101; 69]%N ->
  ~ In x (show_factor f).
Proof.
  intros (H1 & H2 & H3 & H4 & H5 & H6 & H7) Hs Hd Hx. cbn [In] in Hx.
  assert (He : forall o, opt_wf wf_expo o -> ~ In x (opt_show show_expo o)).
  { intros [e|] Ho; [|cbn; tauto]. destruct Ho as (Hc & _ & Hdd). cbn [opt_show]. unfold show_expo. intros [Hi|Hi].
    - rewrite Hi in Hc. cbn in Hc. intuition.
    - apply in_app_or in Hi. destruct Hi as [Hi|Hi]; revert Hi; [apply notin_sign; cbn; tauto|now apply notin_digits]. }
  unfold show_factor. rewrite !in_app_iff. intro Hi.
  repeat match type of Hi with _ \/ _ => destruct Hi as [Hi|Hi] end; revert Hi;
    first [ now apply notin_spaces
          | apply notin_sign; cbn; tauto
          | apply notin_number; [assumption|assumption|intros ->; tauto]
          | apply He; assumption
          | apply notin_when; intros ->; discriminate
          | idtac ].
  destruct H5 as [<-|[<-|[]]]; cbn; intuition.
Qed.
Lemma constraints_factor f s : wf_factor f -> dash s = show_factor f ->
  constraints_from_string s = do d <- mkLogNormal (scaled (f_sign f) (f_num f) (f_exp f)) (number_value (f_factor f)); Ok (PDs [d]).
Proof.
  intros Hw E. pose proof (match_factor f Hw) as Hm.
  assert (Hf : py_float (show_factor f) = None).
  { apply (no_float_char 42%N); [reflexivity|]. unfold show_factor. rewrite !in_app_iff.
    destruct Hw as (_ & _ & _ & _ & [<-|[<-|[]]] & _); cbn; tauto. }
  rewrite dispatch; rewrite E; [|exact Hf]. cbv zeta. rewrite no_upper, no_range; cycle 1.
  { apply notin_factor; auto. cbn. intuition discriminate. }
  { apply notin_factor; auto. cbn. intuition discriminate. }
  destruct Hw as (H1 & H2 & H3 & H4 & H5 & H6 & H7). rewrite Hm. cbn [is_some]. unfold lognormal_from_string. rewrite Hm.
  assert (G : group 1 (fac_caps f) = show_sign (f_sign f) ++ show_number (f_num f) /\
              od_get 2 (fac_caps f) = option_map show_expo (f_exp f) /\ group 3 (fac_caps f) = show_number (f_factor f)).
  { unfold fac_caps. destruct (f_exp f); repeat split. }
  destruct G as (-> & -> & ->). rewrite float_expo_show by assumption. cbn [bind].
  rewrite (float_of_spaces [] (f_factor f) (Forall_nil _) H7 : float_of (show_number (f_factor f)) = _). reflexivity.
Qed.
