From Coq Require Import QArith Qcanon.
From Verif Require Import Base BaseLemmas Regex Parsing_Model Parsing_Spec Parsing_Proofs Parsing_Proofs2 Parsing_Proofs3.
Close Scope Q_scope. Close Scope Qc_scope.

(** ** Characters a float can contain *)
Definition letter (x : N) : bool := ((65 <=? x) && (x <=? 90) || (97 <=? x) && (x <=? 122))%N.
Definition float_char (x : N) : bool := is_space x || is_digit x || memb x [43; 45; 46; 95]%N || letter x.
Definition fchars (s : str) : Prop := Forall (fun x => float_char x = true) s.

Lemma fchars_spaces s : spaces s -> fchars s.
Proof. intro H. eapply Forall_impl; [|exact H]. intros x Hx. unfold float_char. cbn beta in Hx. now rewrite Hx. Qed.
Lemma lstrip_split s : exists a, spaces a /\ s = a ++ lstrip s.
Proof.
  induction s as [|x s [a [Ha E]]]; [exists []; split; [constructor|reflexivity]|]. cbn [lstrip].
  destruct (is_space x) eqn:Ex.
  - exists (x :: a). split; [now constructor|]. cbn [app]. now rewrite <- E.
  - exists []. split; [constructor|reflexivity].
Qed.
Lemma strip_split s : exists a b, spaces a /\ spaces b /\ s = a ++ strip s ++ b.
Proof.
  destruct (lstrip_split s) as [a [Ha Ea]]. destruct (lstrip_split (rev (lstrip s))) as [b [Hb Eb]].
  exists a, (rev b). split; [exact Ha|]. split; [now apply spaces_rev|]. unfold strip.
  rewrite <- rev_app_distr, <- Eb, rev_involutive. exact Ea.
Qed.
Lemma scan_digits_split : forall n s, length s <= n -> forall d r, scan_digits s = (d, r) ->
  exists t, s = t ++ r /\ fchars t.
Proof.
  induction n as [|n IH]; intros s Hl d r H.
  - destruct s; [|cbn in Hl; lia]. injection H as <- <-. exists []. split; [reflexivity|constructor].
  - destruct s as [|x s]; [injection H as <- <-; exists []; split; [reflexivity|constructor]|].
    cbn [scan_digits] in H. destruct (is_digit x) eqn:Ex.
    + assert (Fx : float_char x = true) by (unfold float_char; rewrite Ex, orb_true_r; reflexivity).
      cbn [length] in Hl.
      assert (G1 : forall d r, (let (d, r) := scan_digits s in (x :: d, r)) = (d, r) -> exists t, x :: s = t ++ r /\ fchars t).
      { intros d0 r0 E. destruct (scan_digits s) as [d1 r1] eqn:Es. injection E as <- <-.
        destruct (IH s ltac:(lia) d1 r1 Es) as [t [-> Ht]]. exists (x :: t). split; [reflexivity|now constructor]. }
      destruct s as [|y [|z s]]; [now apply (G1 d)|now apply (G1 d)|].
      destruct (eqb y 95%N && is_digit z) eqn:Eyz; [|now apply (G1 d)].
      apply andb_true_iff in Eyz. destruct Eyz as [Ey _]. apply eqb_true in Ey. subst y.
      destruct (scan_digits (z :: s)) as [d1 r1] eqn:Es. injection H as <- <-.
      destruct (IH (z :: s) ltac:(cbn in *; lia) d1 r1 Es) as [t [E Ht]]. exists (x :: 95%N :: t).
      cbn [app]. rewrite <- E. split; [reflexivity|]. constructor; [exact Fx|]. constructor; [reflexivity|exact Ht].
    + injection H as <- <-. exists []. split; [reflexivity|constructor].
Qed.
Lemma take_sign_split s neg b : take_sign s = (neg, b) -> exists t, s = t ++ b /\ fchars t.
Proof.
  intro H. destruct s as [|x s]; [injection H as <- <-; exists []; split; [reflexivity|constructor]|].
  destruct (N.eq_dec x 45) as [->|H1]; [injection H as <- <-; exists [45%N]; split; [reflexivity|repeat constructor]|].
  destruct (N.eq_dec x 43) as [->|H2]; [injection H as <- <-; exists [43%N]; split; [reflexivity|repeat constructor]|].
  assert (E : take_sign (x :: s) = (false, x :: s)).
  { clear H. destruct x as [|p]; [reflexivity|]. unfold take_sign.
    do 6 (try (destruct p as [p|p|]; try reflexivity)); congruence. }
  rewrite E in H. injection H as <- <-. exists []. split; [reflexivity|constructor].
Qed.
Lemma fchars_app a b : fchars a -> fchars b -> fchars (a ++ b).
Proof. intros. apply Forall_app. split; assumption. Qed.
Lemma scan_exp_fchars s e : scan_exp s = Some e -> fchars s.
Proof.
  destruct s as [|x s]; [constructor|]. unfold scan_exp. destruct (memb x eE) eqn:Ex; [|discriminate].
  destruct (take_sign s) as [ng b] eqn:Et. destruct (scan_digits b) as [d r] eqn:Ed. intro H.
  destruct (take_sign_split _ _ _ Et) as [t1 [-> F1]].
  destruct (scan_digits_split (length b) b (le_n _) d r Ed) as [t2 [-> F2]].
  assert (r = []) as -> by (destruct d; [discriminate|]; destruct r; [reflexivity|discriminate]).
  constructor; [|apply fchars_app; [assumption|]; apply fchars_app; [assumption|constructor]].
  apply memb_In in Ex. destruct Ex as [<-|[<-|[]]]; reflexivity.
Qed.
Lemma lower_letter x w : (forall y, In y w -> letter y = true) -> In (lower x) w -> float_char x = true.
Proof.
  intros Hw H. apply Hw in H. unfold float_char. enough (letter x = true) as -> by now rewrite orb_true_r.
  unfold letter, lower in *. destruct ((65 <=? x)%N && (x <=? 90)%N) eqn:E; cbn [orb]; [reflexivity|].
  rewrite E in H. exact H.
Qed.
Lemma float_alphabet s v : py_float s = Some v -> fchars s.
Proof.
  unfold py_float. intro H. destruct (strip_split s) as [a [b [Ha [Hb E]]]]. rewrite E.
  apply fchars_app; [now apply fchars_spaces|]. apply fchars_app; [|now apply fchars_spaces].
  destruct (take_sign (strip s)) as [ng t] eqn:Et. destruct (take_sign_split _ _ _ Et) as [t1 [-> F1]].
  apply fchars_app; [exact F1|]. clear - H.
  assert (W : forall w, (forall y, In y w -> letter y = true) -> map lower t = w -> fchars t).
  { intros w Hw <-. apply Forall_forall. intros x Hx. apply (lower_letter x (map lower t)); auto. now apply in_map. }
  destruct (eqb_spec (map lower t) (lit "inf")) as [Ei|_].
  { apply (W (lit "inf")); [|exact Ei]. intros y Hy. vm_compute in Hy. intuition (subst; reflexivity). }
  destruct (eqb_spec (map lower t) (lit "infinity")) as [Ei|_].
  { apply (W (lit "infinity")); [|exact Ei]. intros y Hy. vm_compute in Hy. intuition (subst; reflexivity). }
  cbn [orb] in H. destruct (eqb_spec (map lower t) (lit "nan")) as [Ei|_].
  { apply (W (lit "nan")); [|exact Ei]. intros y Hy. vm_compute in Hy. intuition (subst; reflexivity). }
  destruct (scan_number t) as [q|] eqn:En; [|discriminate]. clear H W. unfold scan_number in En.
  destruct (scan_digits t) as [ip r] eqn:E1.
  destruct (scan_digits_split (length t) t (le_n _) ip r E1) as [t1 [-> F1]]. apply fchars_app; [exact F1|].
  assert (G : forall fp r', (match r with 46%N :: r1 => scan_digits r1 | _ => ([], r) end) = (fp, r') ->
              exists t2, r = t2 ++ r' /\ fchars t2).
  { intros fp r' E. destruct r as [|x r]; [injection E as <- <-; exists []; split; [reflexivity|constructor]|].
    destruct (N.eq_dec x 46) as [->|Hx].
    - destruct (scan_digits_split (length r) r (le_n _) fp r' E) as [t2 [-> F2]]. exists (46%N :: t2).
      split; [reflexivity|]. constructor; [reflexivity|exact F2].
    - exists []. split; [|constructor]. cbn [app].
      enough (r' = x :: r) by now symmetry.
      clear - E Hx. destruct x as [|p]; [now injection E|].
      do 6 (try (destruct p as [p|p|]; try (now injection E))); congruence. }
  destruct (match r with 46%N :: r1 => scan_digits r1 | _ => ([], r) end) as [fp r'] eqn:E2.
  destruct (G fp r' eq_refl) as [t2 [-> F2]]. apply fchars_app; [exact F2|].
  destruct (ip ++ fp); [discriminate|]. destruct (scan_exp r') as [e|] eqn:Ee; [|discriminate].
  now apply scan_exp_fchars in Ee.
Qed.
Lemma no_float_char x s : float_char x = false -> In x s -> py_float s = None.
Proof.
  intros Hx Hi. destruct (py_float s) as [v|] eqn:E; [|reflexivity]. apply float_alphabet in E.
  unfold fchars in E. rewrite Forall_forall in E. apply E in Hi. congruence.
Qed.

(** U+2212 minus signs *)
Lemma dash_id s : ~ In 8722%N s -> dash s = s.
Proof.
  intro H. unfold dash. rewrite <- (map_id s) at 2. apply map_ext_in. intros x Hx.
  rewrite neq_eqb; [reflexivity|]. intros ->. exact (H Hx).
Qed.
Lemma dash_no_float s : py_float (dash s) = None -> py_float s = None.
Proof.
  intro H. destruct (in_dec N.eq_dec 8722%N s) as [Hi|Hi].
  - now apply (no_float_char 8722%N).
  - now rewrite dash_id in H.
Qed.
Lemma dispatch s : py_float (dash s) = None ->
  constraints_from_string s =
  let s := dash s in
  if is_some (re_match pattern_upperlimit s) then
    do lc <- limit_from_string s; do d <- mkUpperLimit (fst lc) (snd lc); Ok (PDs [d])
  else if is_some (re_match pattern_range s) then
    do ch <- range_from_string s; Ok (PDs [Uniform (fst ch) (snd ch)])
  else if is_some (re_match pattern_timesby s) then
    do cf <- lognormal_from_string s; do d <- mkLogNormal (fst cf) (snd cf); Ok (PDs [d])
  else if is_some (re_match pattern_brackets s) || is_some (re_match pattern_plusminus s) then
    do e <- errors_from_string s;
    do sy <- mapM (mkNormal (central_value e)) (symmetric_errors e);
    do asy <- mapM (fun rl => mkAsym (central_value e) (fst rl) (snd rl)) (asymmetric_errors e);
    Ok (PDs (sy ++ asy))
  else Err ValueError.
Proof. intro H. unfold constraints_from_string. rewrite dash_no_float by exact H. cbv zeta. now rewrite H. Qed.

(** ** C26 *)
Lemma bracket_string_parts b : exists e es, wf_bracket_string b -> show_bracket_string b =
  show_start (bs_start b) ++ 40%N :: e /\ bs_errors b <> [] /\ es = bs_errors b.
Proof.
  destruct (bs_errors b) as [|x l] eqn:E.
  - exists [], []. intros (_ & H & _). congruence.
  - exists ((b_sp1 x ++ show_number (b_num x) ++ b_sp2 x ++ [41%N] ++ b_sp3 x) ++ concat (map show_bracket l) ++ when (bs_close b) 41 ++ show_tail (bs_tail b)), (x :: l).
    intros _. split; [|split; [discriminate|reflexivity]]. unfold show_bracket_string. rewrite E. cbn [map concat]. unfold show_bracket at 1.
    rewrite <- !app_assoc. reflexivity.
Qed.
Lemma notin_bracket_string x b : wf_bracket_string b -> is_space x = false -> is_digit x = false ->
  ~ In x [43; 45; 40; 41; 42; 46; 94; 101; 69]%N -> ~ In x (show_bracket_string b).
Proof.
  intros (H1 & H2 & H3 & H4 & H5) Hs Hd Hn. cbn [In] in Hn. unfold show_bracket_string. rewrite !in_app_iff.
  intros [Hi|[Hi|[Hi|Hi]]].
  - revert Hi. apply notin_start; auto. cbn. tauto.
  - revert Hi. apply notin_concat. intros e He. rewrite Forall_forall in H3. apply notin_bracket; auto. cbn. tauto.
  - revert Hi. apply notin_when. intros ->. tauto.
  - revert Hi. apply notin_tail; auto. cbn. tauto.
Qed.
Lemma no_float_bracket b : wf_bracket_string b -> py_float (show_bracket_string b) = None.
Proof.
  intro Hw. destruct (bracket_string_parts b) as [e [es H]]. destruct (H Hw) as [-> _].
  apply no_float_start; [apply Hw|reflexivity|reflexivity|]. cbn. intuition discriminate.
Qed.
Lemma constraints_brackets b s : wf_bracket_string b -> dash s = show_bracket_string b ->
  constraints_from_string s = do l <- mapM (mkNormal (bs_central b)) (map (bs_error b) (bs_errors b)); Ok (PDs l).
Proof.
  intros Hw E. rewrite dispatch; rewrite E; [|now apply no_float_bracket]. cbv zeta.
  rewrite no_upper, no_range, no_timesby; cycle 1.
  { apply notin_bracket_string; auto. cbn. intuition discriminate. }
  { apply notin_bracket_string; auto. cbn. intuition discriminate. }
  { apply notin_bracket_string; auto. cbn. intuition discriminate. }
  cbn [is_some]. rewrite match_brackets by exact Hw. cbn [is_some orb]. rewrite errors_brackets by exact Hw.
  cbn [bind central_value symmetric_errors asymmetric_errors mapM].
  destruct (mapM (mkNormal (bs_central b)) (map (bs_error b) (bs_errors b))); cbn [bind]; [|reflexivity]. now rewrite app_nil_r.
Qed.

(** ** C27 *)
Lemma takes_pm_item w a n b rest c : w <> [] -> Forall (fun x => memb x pm_class = true) w -> spaces a -> wf_number n -> spaces b ->
  head_not Space rest -> (b = [] -> no_num rest) -> takes pm_item (w ++ a ++ show_number n ++ b) rest c c.
Proof.
  intros Hne Hw Ha Hn Hb Hr1 Hr2. unfold pm_item. rewrite <- (app_nil_r b). cbn [cat].
  eapply takes_Cat.
  { unfold plus. destruct w as [|x w]; [congruence|]. inversion Hw as [|? ? Hx Hw']; subst. change (x :: w) with ([x] ++ w).
    eapply takes_Cat; [now apply takes_Chr|]. apply takes_star_cls; [exact Hw'|].
    rewrite <- !app_assoc. destruct a as [|y a].
    - cbn [app]. destruct (number_head n Hn) as [d [r [-> Hd]]]. cbn [app head_not in_cls].
      apply digit_notin; [|exact Hd]. intros z Hz. cbn in Hz. intuition (subst; reflexivity).
    - cbn [app head_not in_cls]. inversion Ha as [|? ? Hy]; subst. apply memb_notIn. intro Hi. cbn in Hi. intuition (subst; discriminate). }
  eapply takes_Cat. { apply takes_sp; [assumption|]. rewrite <- !app_assoc. now apply number_head_space. }
  eapply takes_Cat.
  { apply takes_unum; [assumption|]. rewrite app_nil_r. destruct b as [|y b]; [now apply Hr2|].
    inversion Hb; subst. cbn [app no_num]. split; [|intros ->; discriminate].
    destruct (is_digit y) eqn:Ed; [|reflexivity]. apply digit_not_space in Ed. congruence. }
  eapply takes_Cat; [|apply takes_Eps]. apply takes_sp; [assumption|exact Hr1].
Qed.

(** the items of the pattern: an asymmetric error is two items *)
Definition items (t : pm_term) : list str :=
  match t with
  | Sym mk a e b => [mk ++ a ++ show_number e ++ b]
  | Asy a r b c l d => [43%N :: a ++ show_number r ++ b; 45%N :: c ++ show_number l ++ d]
  end.
Lemma items_concat t : concat (items t) = show_term t.
Proof. destruct t; cbn [items concat show_term]; rewrite !app_nil_r; [reflexivity|]. cbn [app]. rewrite <- !app_assoc. reflexivity. Qed.
Lemma items_all ts : concat (flat_map items ts) = concat (map show_term ts).
Proof. induction ts as [|t ts IH]; [reflexivity|]. cbn [flat_map map concat]. now rewrite concat_app, items_concat, IH. Qed.

Lemma mark_facts mk : In mk [[177%N]; lit "\pm"; lit "+-"] ->
  mk <> [] /\ Forall (fun x => memb x pm_class = true) mk /\ exists x r, mk = x :: r /\ In x [177; 92; 43]%N.
Proof.
  intros [<-|[<-|[<-|[]]]]; (split; [discriminate|split; [repeat constructor|]]); eexists _, _; (split; [reflexivity|]); cbn; tauto.
Qed.
Lemma term_head t : wf_term t -> exists x r, show_term t = x :: r /\ In x [177; 92; 43]%N.
Proof.
  destruct t as [mk a e b|a r b c l d]; cbn [wf_term show_term].
  - intros (Hm & _). destruct (mark_facts mk Hm) as (_ & _ & [x [r [-> Hx]]]). eexists _, _. split; [reflexivity|exact Hx].
  - intros _. eexists _, _. split; [reflexivity|]. cbn. tauto.
Qed.
Lemma terms_head ts rest : Forall wf_term ts -> ts <> [] -> exists x r, concat (map show_term ts) ++ rest = x :: r /\ In x [177; 92; 43]%N.
Proof.
  intros H Hne. destruct ts as [|t ts]; [congruence|]. inversion H; subst. destruct (term_head t) as [x [r [E Hx]]]; [assumption|].
  cbn [map concat]. rewrite E. eexists _, _. split; [reflexivity|exact Hx].
Qed.
Lemma sgn_space x : In x [177; 92; 43; 45]%N -> is_space x = false /\ is_digit x = false /\ x <> 46%N.
Proof. intros [<-|[<-|[<-|[<-|[]]]]]; repeat split; try reflexivity; discriminate. Qed.
Lemma terms_rest ts rest : Forall wf_term ts -> head_not Space rest -> head_not Space (concat (map show_term ts) ++ rest).
Proof.
  intros H Hr. destruct ts as [|t ts]; [exact Hr|]. destruct (terms_head (t :: ts) rest H) as [x [r [-> Hx]]]; [discriminate|].
  cbn [head_not in_cls]. apply sgn_space. cbn in *. tauto.
Qed.
Lemma chain_app a rest c c1 c' ts1 ts2 : chain a (concat ts2 ++ rest) c c1 ts1 -> chain a rest c1 c' ts2 -> chain a rest c c' (ts1 ++ ts2).
Proof.
  revert c; induction ts1 as [|t ts1 IH]; intros c H1 H2; cbn [app chain] in *; [now subst|].
  destruct H1 as [Hne [c2 [H3 H4]]]. split; [exact Hne|]. exists c2. split; [|now apply IH].
  rewrite concat_app, <- app_assoc. exact H3.
Qed.
Lemma chain_term t rest c : wf_term t -> head_not Space rest -> (ends_in_number t -> no_num rest) ->
  chain pm_item rest c c (items t).
Proof.
  intros Hw Hr He. destruct t as [mk a e b|a r b c0 l d]; cbn [wf_term items ends_in_number] in *.
  - destruct Hw as (Hm & H1 & H2 & H3). destruct (mark_facts mk Hm) as (Hne & Hall & _).
    cbn [chain concat]. split; [destruct mk; [congruence|discriminate]|]. exists c. split; [|reflexivity].
    now apply takes_pm_item.
  - destruct Hw as (H1 & H2 & H3 & H4 & H5 & H6). cbn [chain concat]. split; [discriminate|]. exists c. split.
    + change (43%N :: a ++ show_number r ++ b) with ([43%N] ++ a ++ show_number r ++ b).
      apply takes_pm_item; [discriminate|repeat constructor|assumption|assumption|assumption|reflexivity|].
      intros _. cbn. split; [reflexivity|discriminate].
    + split; [discriminate|]. exists c. split; [|reflexivity].
      change (45%N :: c0 ++ show_number l ++ d) with ([45%N] ++ c0 ++ show_number l ++ d).
      apply takes_pm_item; [discriminate|repeat constructor|assumption|assumption|assumption|exact Hr|exact He].
Qed.
Lemma chain_terms ts rest c : Forall wf_term ts -> head_not Space rest ->
  (no_num rest \/ forall ts' t, ts = ts' ++ [t] -> ~ ends_in_number t) -> chain pm_item rest c c (flat_map items ts).
Proof.
  intros H Hr He. induction H as [|t ts Ht Hts IH]; [reflexivity|]. cbn [flat_map]. apply chain_app with (c1 := c).
  - rewrite items_all. apply chain_term; [assumption|now apply terms_rest|].
    destruct ts as [|t' ts].
    + cbn. destruct He as [He|He]; [auto|]. intro Hen. exfalso. exact (He [] t eq_refl Hen).
    + intros _. destruct (terms_head (t' :: ts) rest Hts) as [x [r [-> Hx]]]; [discriminate|].
      cbn [no_num]. split; apply sgn_space; cbn in *; tauto.
  - apply IH. destruct He as [He|He]; [now left|]. right. intros ts' t' ->. exact (He (t :: ts') t' eq_refl).
Qed.

Lemma match_plusminus p : wf_pm_string p ->
  re_match pattern_plusminus (show_pm_string p) =
  Some (final_caps (show_sign (neg (s_neg (pm_start p))) ++ show_number (s_num (pm_start p)))
                   (concat (map show_term (pm_terms p))) (t_pow (pm_tail p))).
Proof.
  intros (H1 & H2 & H3 & H4 & H5 & H6). destruct (errors_head_facts _ _ H4 H5) as [Hh1 Hh2].
  assert (Ear : (when (pm_close p) 41 ++ t_sp1 (pm_tail p) ++ when (t_star (pm_tail p)) 42 ++ t_sp2 (pm_tail p) ++ opt_show show_power (t_pow (pm_tail p)) ++ [])
     ++ when (t_nl (pm_tail p)) 10 = after_errors (pm_close p) (pm_tail p)).
  { unfold after_errors. rewrite show_tail_eq, <- !app_assoc. reflexivity. }
  assert (E : show_pm_string p =
    ((show_start (pm_start p) ++ []) ++ (concat (map show_term (pm_terms p)) ++ []) ++
     (when (pm_close p) 41 ++ t_sp1 (pm_tail p) ++ when (t_star (pm_tail p)) 42 ++ t_sp2 (pm_tail p) ++ opt_show show_power (t_pow (pm_tail p)) ++ []))
    ++ when (t_nl (pm_tail p)) 10).
  { unfold show_pm_string, show_tail. rewrite !app_nil_r, <- !app_assoc. reflexivity. }
  assert (Hlast : no_num (after_errors (pm_close p) (pm_tail p)) \/
                  forall ts' t, pm_terms p = ts' ++ [t] -> ~ ends_in_number t).
  { pose proof (after_errors_head _ _ H4 H5) as Hh. unfold after_errors in *.
    destruct (pm_close p) eqn:Ec; [left; cbn; split; [reflexivity|discriminate]|].
    destruct (t_star (pm_tail p)) eqn:Est.
    { left. unfold show_tail. rewrite H5, Est by reflexivity. cbn. split; [reflexivity|discriminate]. }
    destruct (t_pow (pm_tail p)) as [q|] eqn:Eq.
    - destruct (H6 eq_refl eq_refl q eq_refl) as [Hq|[Hq|Hq]]; [left|left|right; exact Hq];
        unfold show_tail; rewrite H5, Est, Eq by reflexivity; destruct H4 as (_ & _ & _ & H4 & _); rewrite H4 by assumption;
        cbn [when app opt_show]; unfold show_power; rewrite Hq; cbn; split; try reflexivity; discriminate.
    - left. unfold show_tail. rewrite H5, Est, Eq by reflexivity. destruct H4 as (_ & _ & _ & H4 & H7). rewrite H4, H7 by assumption. exact I. }
  rewrite E. apply takes_match.
  eapply (cat_app [sp; opt (ch 40); sp; Grp 1 (Cat (opt (ch 45)) unum); sp]
                  [Grp 2 (plus pm_item); opt (ch 41); sp; opt (ch 42); sp; pow10 3; End]).
  { rewrite <- !app_assoc. cbn [app].
    match goal with |- takes _ _ ?R _ _ => assert (Hx : exists x r, R = x :: r /\ In x [177; 92; 43]%N) by (apply terms_head; assumption) end.
    destruct Hx as [x [r [-> Hx]]]. apply takes_start; [assumption| |]; cbn [head_not in_cls no_num].
    - apply sgn_space. cbn in *. tauto.
    - split; apply sgn_space; cbn in *; tauto. }
  eapply (cat_app [Grp 2 (plus pm_item)]).
  { rewrite Ear. cbn [cat]. eapply takes_Cat; [|apply takes_Eps]. apply takes_Grp. cbn [app].
    rewrite <- items_all. pose proof (chain_terms (pm_terms p) (after_errors (pm_close p) (pm_tail p)) (od_set 1 (show_sign (neg (s_neg (pm_start p))) ++ show_number (s_num (pm_start p))) []) H3 Hh1 Hlast) as Hc.
    destruct (flat_map items (pm_terms p)) as [|i its] eqn:Ei.
    { exfalso. destruct (pm_terms p) as [|[]]; [congruence|discriminate|discriminate]. }
    destruct Hc as [_ [c1 [Hc1 Hc2]]].
    eapply takes_plus; [exact Hc1| |exact Hc2].
    unfold pm_item, plus. cbn [cat]. apply nomatch_Cat, nomatch_Cat, nomatch_Chr.
    destruct (after_errors (pm_close p) (pm_tail p)) as [|x r]; [exact I|]. apply Hh2. }
  apply (takes_close_tail 3 (pm_close p) (pm_tail p)); assumption.
Qed.

(** ** The bracket pattern does not match plus-minus strings *)
Fixpoint within (p : N -> bool) (r : re) : Prop :=
  match r with
  | Chr k => forall x, in_cls k x = true -> p x = true
  | Eps | End => True
  | Cat a b | Or a b => within p a /\ within p b
  | Star a | Grp _ a => within p a
  end.
Lemma M_within p r s c s' c' : within p r -> M r s c s' c' -> exists t, s = t ++ s' /\ Forall (fun x => p x = true) t.
Proof.
  intros Hw HM. induction HM as [k x s c H|s c|a b s c s1 c1 s2 c2 H1 IH1 H2 IH2|a b s c s' c' H IH|a b s c s' c' H IH
    |a s c|a s c s1 c1 s2 c2 H1 IH1 Hl H2 IH2|n a s c s' c' H IH|s c H]; cbn [within] in Hw.
  - exists [x]. split; [reflexivity|]. constructor; [now apply Hw|constructor].
  - exists []. split; [reflexivity|constructor].
  - destruct (IH1 (proj1 Hw)) as [t1 [-> F1]]. destruct (IH2 (proj2 Hw)) as [t2 [-> F2]]. exists (t1 ++ t2).
    split; [now rewrite <- app_assoc|]. apply Forall_app. now split.
  - now apply IH.
  - now apply IH.
  - exists []. split; [reflexivity|constructor].
  - destruct (IH1 Hw) as [t1 [-> F1]]. destruct (IH2 Hw) as [t2 [-> F2]]. exists (t1 ++ t2).
    split; [now rewrite <- app_assoc|]. apply Forall_app. now split.
  - now apply IH.
  - exists []. split; [reflexivity|constructor].
Qed.
Definition prefix_char (x : N) : bool := is_space x || is_digit x || memb x [45; 46; 40]%N.
Lemma brackets_shape s : re_match pattern_brackets s <> None ->
  exists a b, s = a ++ 40%N :: b /\ Forall (fun x => prefix_char x = true) a /\ exists d, In d a /\ is_digit d = true.
Proof.
  unfold re_match. intro H. destruct (m pattern_brackets s [] (fun _ c => Some c)) as [y|] eqn:E; [|congruence]. clear H.
  apply m_sound in E. destruct E as [s' [c' [HM _]]]. unfold pattern_brackets in HM. cbn [cat] in HM.
  inversion HM as [| |? ? ? ? s1 c1 ? ? M1 HM1| | | | | |]; subst.
  inversion HM1 as [| |? ? ? ? s2 c2 ? ? M2 HM2| | | | | |]; subst.
  inversion HM2 as [| |? ? ? ? s3 c3 ? ? M3 HM3| | | | | |]; subst.
  inversion HM3 as [| |? ? ? ? s4 c4 ? ? M4 HM4| | | | | |]; subst.
  inversion HM4 as [| |? ? ? ? s5 c5 ? ? M5 HM5| | | | | |]; subst.
  inversion HM5 as [| |? ? ? ? s6 c6 ? ? M6 HM6| | | | | |]; subst.
  assert (W : forall r s c s' c', within prefix_char r -> M r s c s' c' -> exists t, s = t ++ s' /\ Forall (fun x => prefix_char x = true) t)
    by (intros; eapply M_within; eassumption).
  assert (Wsp : within prefix_char sp). { intros x Hx. unfold prefix_char. change (is_space x = true) in Hx. now rewrite Hx. }
  assert (Wd : within prefix_char (Chr Digit)). { intros x Hx. unfold prefix_char. change (is_digit x = true) in Hx. rewrite Hx. apply orb_true_iff. left. apply orb_true_r. }
  assert (Wch : forall z, memb z [45; 46; 40]%N = true -> within prefix_char (ch z)).
  { intros z Hz x Hx. rewrite ch_cls in Hx. apply eqb_true in Hx. subst x. unfold prefix_char. rewrite Hz. apply orb_true_r. }
  assert (Wun : within prefix_char unum).
  { repeat split; auto; apply (Wch 46%N eq_refl). }
  destruct (W _ _ _ _ _ Wsp M1) as [t1 [-> F1]].
  destruct (W _ _ _ _ _ (conj (Wch 40%N eq_refl) I : within prefix_char (opt (ch 40))) M2) as [t2 [-> F2]].
  destruct (W _ _ _ _ _ Wsp M3) as [t3 [-> F3]].
  destruct (W _ _ _ _ _ (conj (conj (Wch 45%N eq_refl) I) Wun : within prefix_char (Grp 1 (Cat (opt (ch 45)) unum))) M4) as [t4 [-> F4]].
  destruct (W _ _ _ _ _ Wsp M5) as [t5 [-> F5]].
  assert (Hb : exists b, s5 = 40%N :: b).
  { inversion M6 as [| | | | | | |? ? ? ? ? ? M7|]; subst. inversion M7 as [| |? ? ? ? ? ? ? ? M8| | | | | |]; subst.
    unfold bracket_item in M8. cbn [cat] in M8. inversion M8 as [| |? ? ? ? ? ? ? ? M9| | | | | |]; subst.
    inversion M9 as [? x ? ? Hx| | | | | | | |]; subst. rewrite ch_cls in Hx. apply eqb_true in Hx. subst x. eexists; reflexivity. }
  destruct Hb as [b ->].
  assert (Hd : exists d, In d t4 /\ is_digit d = true).
  { inversion M4 as [| | | | | | |? ? ? ? ? ? M7 E1 E2 E3|]; subst.
    inversion M7 as [| |? ? ? ? sa ca ? ? M8 M8'| | | | | |]; subst.
    inversion M8' as [| |? ? ? ? sb cb ? ? M9 M9'| | | | | |]; subst.
    inversion M9 as [| |? ? ? ? sc cc ? ? M10 M10'| | | | | |]; subst.
    inversion M10 as [? x ? ? Hx| | | | | | | |]; subst.
    destruct (M_prefix M8) as [u1 Eu1]. destruct (M_prefix M10') as [u2 ->]. destruct (M_prefix M9') as [u3 ->].
    exists x. split; [|exact Hx].
    replace (x :: u2 ++ u3 ++ t5 ++ 40%N :: b) with ((x :: u2 ++ u3) ++ t5 ++ 40%N :: b) in Eu1 by (cbn [app]; rewrite <- app_assoc; reflexivity).
    rewrite (app_assoc u1) in Eu1. apply app_inv_tail in Eu1. rewrite Eu1. apply in_or_app. right. now left. }
  exists (t1 ++ t2 ++ t3 ++ t4 ++ t5), b. split; [rewrite <- !app_assoc; reflexivity|]. split.
  - rewrite !Forall_app. auto.
  - destruct Hd as [d [Hd1 Hd2]]. exists d. split; [|exact Hd2]. rewrite !in_app_iff. tauto.
Qed.

Lemma app_split (x y : N) a b S z : a ++ x :: b = S ++ y :: z -> ~ In y a -> x <> y -> exists b', S = a ++ x :: b'.
Proof.
  revert S. induction a as [|u a IH]; intros S E Hy Hxy.
  - destruct S as [|v S]; cbn in E; injection E as E1 E2; [congruence|]. subst v. exists S. reflexivity.
  - destruct S as [|v S]; cbn in E; injection E as E1 E2.
    + exfalso. apply Hy. now left.
    + subst v. destruct (IH S E2) as [b' ->]; [intro Hi; apply Hy; now right|exact Hxy|]. exists b'. reflexivity.
Qed.
Lemma app_unique (x : N) a b a' b' : a ++ x :: b = a' ++ x :: b' -> ~ In x a' -> ~ In x b' -> a = a'.
Proof.
  revert a'. induction a as [|u a IH]; intros a' E Ha Hb.
  - destruct a' as [|v a']; [reflexivity|]. cbn in E. injection E as E1 E2. exfalso. apply Ha. now left.
  - destruct a' as [|v a']; cbn in E; injection E as E1 E2.
    + exfalso. apply Hb. rewrite <- E2. apply in_or_app. right; now left.
    + subst v. f_equal. apply IH; auto. intro Hi. apply Ha. now right.
Qed.
Lemma no_brackets_start s y z : wf_start s -> prefix_char y = false -> re_match pattern_brackets (show_start s ++ y :: z) = None.
Proof.
  intros (H1 & H2 & H3 & H4 & H5) Hy. destruct (re_match pattern_brackets (show_start s ++ y :: z)) eqn:E; [exfalso|reflexivity].
  destruct (brackets_shape (show_start s ++ y :: z)) as [a [b [E1 [Fa [d [Hd1 Hd2]]]]]]; [congruence|].
  assert (Hya : ~ In y a). { intro Hi. rewrite Forall_forall in Fa. apply Fa in Hi. congruence. }
  assert (Hyx : 40%N <> y) by (intros <-; discriminate).
  symmetry in E1. destruct (app_split _ _ _ _ _ _ E1 Hya Hyx) as [b' Eb]. unfold show_start in Eb.
  assert (N1 : ~ In 40%N (s_sp1 s)) by now apply notin_spaces.
  assert (N2 : ~ In 40%N (s_sp2 s ++ (show_sign (neg (s_neg s)) ++ show_number (s_num s)) ++ s_sp3 s)).
  { rewrite !in_app_iff. intros [Hi|[[Hi|Hi]|Hi]]; revert Hi.
    - now apply notin_spaces.
    - apply notin_sign. cbn. intuition discriminate.
    - apply notin_number; [assumption|reflexivity|discriminate].
    - now apply notin_spaces. }
  destruct (s_open s); cbn [when app] in Eb.
  - symmetry in Eb. apply app_unique in Eb; [|exact N1|exact N2]. subst a.
    exact (notin_spaces d _ H1 (digit_not_space d Hd2) Hd1).
  - assert (Hi : In 40%N (a ++ 40%N :: b')) by (apply in_or_app; right; now left). rewrite <- Eb in Hi.
    apply in_app_or in Hi. tauto.
Qed.

(** ** findall on plus-minus errors *)
Lemma nomatch_sym_head x r : ~ In x [177; 92; 43]%N -> nomatch pattern_symmetric_err (x :: r).
Proof.
  intro H. cbn [In] in H. unfold pattern_symmetric_err. apply nomatch_Cat. apply nomatch_Or; [apply nomatch_ch; intros ->; tauto|].
  apply nomatch_Or; cbn [lit word]; apply nomatch_Cat, nomatch_ch; intros ->; cbn in H; tauto.
Qed.
Lemma sym_skip t rest : (forall x, In x t -> ~ In x [177; 92; 43]%N) ->
  findall pattern_symmetric_err (t ++ rest) = findall pattern_symmetric_err rest.
Proof.
  intro H. apply findall_skips. intros a b x ->. apply nomatch_rest, nomatch_sym_head. apply H. apply in_or_app. right; now left.
Qed.
Lemma asy_skip t rest : ~ In 43%N t -> findall pattern_asymmetric_err (t ++ rest) = findall pattern_asymmetric_err rest.
Proof.
  intro H. apply findall_skips. intros a b x ->. apply nomatch_rest. unfold pattern_asymmetric_err. cbn [cat].
  apply nomatch_Cat, nomatch_ch. intros ->. apply H. apply in_or_app. right; now left.
Qed.
Lemma spaces_not x a l : spaces a -> In x a -> (forall y, In y l -> is_space y = false) -> ~ In x l.
Proof. intros Ha Hx Hl Hi. apply Hl in Hi. unfold spaces in Ha. rewrite Forall_forall in Ha. apply Ha in Hx. congruence. Qed.
Lemma number_not x n l : wf_number n -> In x (show_number n) -> (forall y, In y l -> is_digit y = false /\ y <> 46%N) -> ~ In x l.
Proof. intros Hn Hx Hl Hi. destruct (Hl x Hi) as [H1 H2]. exact (notin_number x n Hn H1 H2 Hx). Qed.
Lemma terms_no_num ts : Forall wf_term ts -> no_num (concat (map show_term ts)).
Proof.
  intro H. destruct ts as [|t ts]; [exact I|]. destruct (terms_head (t :: ts) [] H) as [x [r [E Hx]]]; [discriminate|].
  rewrite app_nil_r in E. rewrite E. cbn [no_num]. split; apply sgn_space; cbn in *; tauto.
Qed.
Definition sym_caps (t : pm_term) : list caps := match t with Sym _ a e _ => [[(1, a ++ show_number e)]] | _ => [] end.
Definition asy_caps (t : pm_term) : list caps := match t with Asy _ r _ _ l _ => [[(1, show_number r); (2, show_number l)]] | _ => [] end.
Lemma takes_sym mk a e rest : In mk [[177%N]; lit "\pm"; lit "+-"] -> spaces a -> wf_number e -> no_num rest ->
  takes pattern_symmetric_err (mk ++ (a ++ show_number e)) rest [] [(1, a ++ show_number e)].
Proof.
  intros Hm Ha He Hr. unfold pattern_symmetric_err. eapply takes_Cat with (c1 := []).
  - destruct Hm as [<-|[<-|[<-|[]]]].
    + apply takes_OrL, takes_ch.
    + apply takes_OrR; [apply nomatch_ch; discriminate|]. apply takes_OrL, takes_word.
    + apply takes_OrR; [apply nomatch_ch; discriminate|]. apply takes_OrR; [intros X c k; reflexivity|]. apply takes_word.
  - change [(1, a ++ show_number e)] with (od_set 1 (a ++ show_number e) []). apply takes_Grp.
    eapply takes_Cat; [apply takes_sp; [assumption|]; now apply number_head_space|now apply takes_unum].
Qed.
Lemma nospace_nodigit_head a n rest x : spaces a -> wf_number n -> is_space x = false -> is_digit x = false ->
  match a ++ show_number n ++ rest with [] => True | y :: _ => y <> x end.
Proof.
  intros Ha Hn H1 H2. destruct a as [|y a]; cbn [app].
  - destruct (number_head n Hn) as [d [r [-> Hd]]]. cbn. intros ->. congruence.
  - inversion Ha; subst. intros ->. congruence.
Qed.
Lemma findall_sym ts : Forall wf_term ts -> findall pattern_symmetric_err (concat (map show_term ts)) = flat_map sym_caps ts.
Proof.
  intro H. induction H as [|t ts Ht Hts IH]; [reflexivity|]. cbn [map concat flat_map].
  destruct t as [mk a e b|a r b c l d]; cbn [wf_term show_term sym_caps app] in *.
  - destruct Ht as (Hm & Ha & He & Hb).
    replace ((mk ++ a ++ show_number e ++ b) ++ concat (map show_term ts)) with
            ((mk ++ a ++ show_number e) ++ b ++ concat (map show_term ts)) by (rewrite <- !app_assoc; reflexivity).
    erewrite findall_hit; [|apply takes_sym; auto|].
    + f_equal. rewrite sym_skip; [exact IH|]. intros x Hx. eapply spaces_not; [exact Hb|exact Hx|].
      intros y Hy. cbn in Hy. intuition (subst; reflexivity).
    + apply space_no_num; [assumption|]. now apply terms_no_num.
    + destruct (mark_facts mk Hm) as [Hne _]. destruct mk; [congruence|discriminate].
  - destruct Ht as (H1 & H2 & H3 & H4 & H5 & H6).
    rewrite findall_skip.
    + rewrite sym_skip; [exact IH|]. intros x Hx. rewrite !in_app_iff in Hx. cbn [In] in Hx.
      assert (Hl1 : forall y, In y [177; 92; 43]%N -> is_space y = false) by (intros y Hy; cbn in Hy; intuition (subst; reflexivity)).
      assert (Hl2 : forall y, In y [177; 92; 43]%N -> is_digit y = false /\ y <> 46%N) by (intros y Hy; cbn in Hy; intuition (subst; try reflexivity; discriminate)).
      repeat match type of Hx with _ \/ _ => destruct Hx as [Hx|Hx] | In _ (_ ++ _) => apply in_app_or in Hx end;
        first [ eapply spaces_not; [|exact Hx|exact Hl1]; assumption
              | eapply number_not; [|exact Hx|exact Hl2]; assumption
              | subst x; cbn; intuition discriminate ].
    + apply nomatch_rest. unfold pattern_symmetric_err. apply nomatch_Cat, nomatch_Or; [apply nomatch_ch; discriminate|].
      apply nomatch_Or; [intros X c' k; reflexivity|].
      assert (Hh := nospace_nodigit_head a r (b ++ 45%N :: c ++ show_number l ++ d ++ concat (map show_term ts)) 45 H1 H2 eq_refl eq_refl).
      intros X c' k. rewrite <- !app_assoc. cbn [app]. rewrite <- !app_assoc.
      destruct (a ++ show_number r ++ b ++ 45%N :: c ++ show_number l ++ d ++ concat (map show_term ts)) as [|y rr]; [reflexivity|].
      change (m (Cat (ch 43) (Cat (ch 45) Eps)) (43%N :: y :: rr) c' k = None). cbn [m].
      unfold ch. cbn [m]. rewrite !ch_cls, eqb_refl. now rewrite neq_eqb.
Qed.
Lemma takes_asy a r b c l rest : spaces a -> wf_number r -> spaces b -> spaces c -> wf_number l -> no_num rest ->
  takes pattern_asymmetric_err ([43%N] ++ a ++ show_number r ++ b ++ [45%N] ++ c ++ show_number l ++ []) rest []
        [(1, show_number r); (2, show_number l)].
Proof.
  intros Ha Hr Hb Hc Hl Hrest. unfold pattern_asymmetric_err. cbn [cat].
  eapply takes_Cat; [apply takes_ch|].
  eapply takes_Cat. { apply takes_sp; [assumption|]. rewrite <- !app_assoc. now apply number_head_space. }
  eapply takes_Cat.
  { apply takes_Grp. apply takes_unum; [assumption|]. rewrite <- !app_assoc. apply space_no_num; [assumption|].
    cbn. split; [reflexivity|discriminate]. }
  eapply takes_Cat. { apply takes_sp; [assumption|]. reflexivity. }
  eapply takes_Cat; [apply takes_ch|].
  eapply takes_Cat. { apply takes_sp; [assumption|]. rewrite <- !app_assoc. now apply number_head_space. }
  eapply takes_Cat; [|apply takes_Eps].
  change [(1, show_number r); (2, show_number l)] with (od_set 2 (show_number l) (od_set 1 (show_number r) [])).
  apply takes_Grp. now apply takes_unum.
Qed.
Lemma findall_asy ts : Forall wf_term ts -> findall pattern_asymmetric_err (concat (map show_term ts)) = flat_map asy_caps ts.
Proof.
  intro H. induction H as [|t ts Ht Hts IH]; [reflexivity|]. cbn [map concat flat_map].
  destruct t as [mk a e b|a r b c l d]; cbn [wf_term show_term asy_caps app] in *.
  - destruct Ht as (Hm & Ha & He & Hb).
    assert (N : ~ In 43%N (a ++ show_number e ++ b)).
    { rewrite !in_app_iff. intros [Hi|[Hi|Hi]]; revert Hi;
        first [now apply notin_spaces|apply notin_number; [assumption|reflexivity|discriminate]]. }
    rewrite <- app_assoc. destruct Hm as [<-|[<-|[<-|[]]]].
    + change ([177%N] ++ (a ++ show_number e ++ b) ++ concat (map show_term ts)) with
             ((177%N :: a ++ show_number e ++ b) ++ concat (map show_term ts)).
      rewrite asy_skip; [exact IH|]. intros [Hi|Hi]; [discriminate|exact (N Hi)].
    + change (lit "\pm" ++ (a ++ show_number e ++ b) ++ concat (map show_term ts)) with
             ((92%N :: 112%N :: 109%N :: a ++ show_number e ++ b) ++ concat (map show_term ts)).
      rewrite asy_skip; [exact IH|]. intros [Hi|[Hi|[Hi|Hi]]]; try discriminate. exact (N Hi).
    + change (lit "+-" ++ (a ++ show_number e ++ b) ++ concat (map show_term ts)) with
             (43%N :: (45%N :: a ++ show_number e ++ b) ++ concat (map show_term ts)).
      rewrite findall_skip; [rewrite asy_skip; [exact IH|]; intros [Hi|Hi]; [discriminate|exact (N Hi)]|].
      apply nomatch_rest. intros X c' k. reflexivity.
  - destruct Ht as (H1 & H2 & H3 & H4 & H5 & H6).
    replace (43%N :: (a ++ show_number r ++ b ++ 45%N :: c ++ show_number l ++ d) ++ concat (map show_term ts)) with
      (([43%N] ++ a ++ show_number r ++ b ++ [45%N] ++ c ++ show_number l ++ []) ++ d ++ concat (map show_term ts))
      by (cbn [app]; rewrite <- !app_assoc; cbn [app]; rewrite <- !app_assoc; reflexivity).
    erewrite findall_hit; [|apply takes_asy; auto|discriminate].
    + f_equal. rewrite asy_skip; [exact IH|]. now apply notin_spaces.
    + apply space_no_num; [assumption|]. now apply terms_no_num.
Qed.
