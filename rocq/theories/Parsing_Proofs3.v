From Coq Require Import QArith Qcanon.
From Verif Require Import Base BaseLemmas Regex Parsing_Model Parsing_Spec Parsing_Proofs Parsing_Proofs2.
Close Scope Q_scope. Close Scope Qc_scope.

(** ** Strings starting with a central value and an error are not floats *)
Lemma scan_digits_nodigit x r : is_digit x = false -> scan_digits (x :: r) = ([], x :: r).
Proof. intro H. cbn [scan_digits]. now rewrite H. Qed.

Lemma no_float_head a x r : spaces a -> is_space x = false -> is_digit x = false ->
  ~ In x [43; 45; 46; 105; 73; 110; 78]%N -> py_float (a ++ x :: r) = None.
Proof.
  intros Ha Hs Hd Hx. unfold py_float.
  assert (E : exists r', strip (a ++ x :: r) = x :: r').
  { unfold strip. rewrite lstrip_spaces, lstrip_head by assumption. cbn [rev].
    assert (G : forall w, exists w', lstrip (w ++ [x]) = w' ++ [x]).
    { induction w as [|u w [w' IH]].
      - exists []. cbn [app]. now rewrite lstrip_head.
      - cbn [app lstrip]. destruct (is_space u); [exists w'; exact IH|]. exists (u :: w). reflexivity. }
    destruct (G (rev r)) as [w' ->]. exists (rev w'). rewrite rev_app_distr. reflexivity. }
  destruct E as [r' ->].
  assert (Et : take_sign (x :: r') = (false, x :: r')).
  { destruct x as [|p]; [reflexivity|]. unfold take_sign.
    do 6 (try (destruct p as [p|p|]; try reflexivity)); exfalso; apply Hx; cbn; tauto. }
  rewrite Et. cbn [map].
  assert (Hw : forall w, match w with [] => True | y :: _ => y <> lower x end -> eqb (lower x :: map lower r') w = false).
  { intros w Hw. apply neq_eqb. intros <-. now apply Hw. }
  assert (Hlx : lower x <> 105%N /\ lower x <> 110%N).
  { unfold lower. cbn [In] in Hx. destruct ((65 <=? x)%N && (x <=? 90)%N) eqn:El.
    - apply andb_true_iff in El. destruct El as [E1 E2]. apply N.leb_le in E1. apply N.leb_le in E2. lia.
    - lia. }
  rewrite !Hw by (cbn; intuition congruence). cbn [orb].
  unfold scan_number. rewrite scan_digits_nodigit by assumption.
  clear - Hx. destruct x as [|p]; [reflexivity|].
  do 6 (try (destruct p as [p|p|]; try reflexivity)); exfalso; apply Hx; cbn; tauto.
Qed.

Lemma no_float_start s y z : wf_start s -> is_space y = false -> is_digit y = false -> ~ In y [95; 46; 101; 69]%N ->
  py_float (show_start s ++ y :: z) = None.
Proof.
  intros (H1 & H2 & H3 & H4 & H5) Hs Hd Hy. unfold show_start. destruct (s_open s) eqn:Eo.
  - cbn [when]. rewrite <- !app_assoc. cbn [app]. apply no_float_head; auto. cbn. intuition discriminate.
  - rewrite H5 by reflexivity. cbn [when app]. destruct (number_head _ H3) as [d [r [En Hdd]]].
    set (sg := show_sign (neg (s_neg s))) in *.
    assert (Ex : exists x t, sg ++ show_number (s_num s) ++ s_sp3 s = x :: t /\ is_space x = false).
    { rewrite En. apply sign_nospace. exact Hdd. }
    destruct Ex as [x [t [Ex Hx]]].
    destruct (strip_keep (s_sp1 s) x t y z H1 Hx Hs) as [z' Ez].
    assert (Es : (s_sp1 s ++ (sg ++ show_number (s_num s)) ++ s_sp3 s) ++ y :: z = s_sp1 s ++ (x :: t) ++ y :: z).
    { rewrite <- Ex, <- !app_assoc. reflexivity. }
    rewrite Es. unfold py_float. rewrite Ez, <- Ex. subst sg. rewrite <- !app_assoc, En. cbn [app].
    rewrite take_sign_show by assumption.
    destruct (not_word d (r ++ s_sp3 s ++ y :: z') Hdd) as [W1 W2]. rewrite W1, W2.
    change (d :: r ++ s_sp3 s ++ y :: z') with ((d :: r) ++ s_sp3 s ++ y :: z'). rewrite <- En.
    assert (Hst : match s_sp3 s ++ y :: z' with
                  | [] => False | u :: _ => is_digit u = false /\ ~ In u [95; 46; 101; 69]%N end).
    { destruct (s_sp3 s) as [|u sp3]; cbn [app]; [auto|]. inversion H4 as [|? ? Hu]; subst. split.
      - destruct (is_digit u) eqn:Eu; [|reflexivity]. apply digit_not_space in Eu. congruence.
      - intros [<-|[<-|[<-|[<-|[]]]]]; discriminate. }
    rewrite scan_number_show; [|assumption|].
    + destruct (s_sp3 s ++ y :: z') as [|u rr]; [destruct Hst|]. destruct Hst as [_ Hu]. unfold scan_exp.
      assert (Em : memb u eE = false). { apply memb_notIn. intro Hi. apply Hu. cbn in *. tauto. }
      rewrite Em. reflexivity.
    + destruct (s_sp3 s ++ y :: z') as [|u rr]; [exact I|]. destruct Hst as [Hu1 Hu2]. cbn [num_stop].
      repeat split; auto; intros ->; apply Hu2; cbn; tauto.
Qed.

(** ** Absence of characters *)
Lemma notin_spaces x s : spaces s -> is_space x = false -> ~ In x s.
Proof. intros H Hx Hi. unfold spaces in H. rewrite Forall_forall in H. apply H in Hi. congruence. Qed.
Lemma notin_digits x s : digits s -> is_digit x = false -> ~ In x s.
Proof. intros H Hx Hi. unfold digits in H. rewrite Forall_forall in H. apply H in Hi. congruence. Qed.
Lemma notin_number x n : wf_number n -> is_digit x = false -> x <> 46%N -> ~ In x (show_number n).
Proof.
  intros (_ & Hd & Hf) Hx Hx'. unfold show_number, frac_digits in *. rewrite in_app_iff.
  intros [Hi|Hi]; [exact (notin_digits x _ Hd Hx Hi)|]. destruct (frac n); [|destruct Hi].
  destruct Hi as [Hi|Hi]; [congruence|]. exact (notin_digits x _ Hf Hx Hi).
Qed.
Lemma notin_when x b c : x <> c -> ~ In x (when b c).
Proof. intros H. destruct b; cbn; intuition congruence. Qed.
Lemma notin_sign x s : ~ In x [43; 45]%N -> ~ In x (show_sign s).
Proof. intros H. destruct s as [[|]|]; cbn in *; tauto. Qed.
Lemma notin_power x p : wf_power p -> is_digit x = false -> ~ In x [43; 45; 40; 41; 94; 101; 69]%N -> ~ In x (show_power p).
Proof.
  intros (Hp & _ & Hd) Hx Hn. unfold show_power. cbn [In] in Hn. rewrite !in_app_iff.
  intros [Hi|[Hi|[[Hi|Hi]|Hi]]].
  - destruct Hp as [E|[E|[E|[E|[E|[]]]]]]; rewrite <- E in Hi; cbn in Hi; repeat (destruct Hi as [<-|Hi]; [first [discriminate Hx|tauto]|]); exact Hi.
  - revert Hi. apply notin_when. intros ->. tauto.
  - revert Hi. apply notin_sign. cbn. tauto.
  - revert Hi. now apply notin_digits.
  - revert Hi. apply notin_when. intros ->. tauto.
Qed.
Lemma notin_tail x t : wf_tail t -> is_space x = false -> is_digit x = false ->
  ~ In x [43; 45; 40; 41; 42; 94; 101; 69]%N -> ~ In x (show_tail t).
Proof.
  intros (H1 & H2 & H3 & _) Hs Hx Hn. cbn [In] in Hn. unfold show_tail. rewrite !in_app_iff.
  intros [Hi|[Hi|[Hi|[Hi|Hi]]]].
  - revert Hi. now apply notin_spaces.
  - revert Hi. apply notin_when. intros ->. tauto.
  - revert Hi. now apply notin_spaces.
  - destruct (t_pow t) as [p|]; [|destruct Hi]. revert Hi. apply notin_power; auto. cbn. tauto.
  - revert Hi. apply notin_when. intros ->. discriminate.
Qed.
Lemma notin_start x s : wf_start s -> is_space x = false -> is_digit x = false -> ~ In x [45; 40; 46]%N -> ~ In x (show_start s).
Proof.
  intros (H1 & H2 & H3 & H4 & _) Hs Hx Hn. cbn [In] in Hn. unfold show_start. rewrite !in_app_iff.
  intros [Hi|[Hi|[Hi|[[Hi|Hi]|Hi]]]].
  - revert Hi. now apply notin_spaces.
  - revert Hi. apply notin_when. intros ->. tauto.
  - revert Hi. now apply notin_spaces.
  - destruct (s_neg s); cbn in Hi; [|exact Hi]. destruct Hi as [<-|[]]. tauto.
  - revert Hi. apply notin_number; [assumption|assumption|intros ->; tauto].
  - revert Hi. now apply notin_spaces.
Qed.
Lemma notin_concat {A} x (f : A -> str) l : (forall a, In a l -> ~ In x (f a)) -> ~ In x (concat (map f l)).
Proof. intros H Hi. apply in_concat in Hi. destruct Hi as [t [Ht Hx]]. apply in_map_iff in Ht. destruct Ht as [a [<- Ha]]. exact (H a Ha Hx). Qed.
Lemma notin_bracket x b : wf_bracket b -> is_space x = false -> is_digit x = false -> ~ In x [40; 41; 46]%N -> ~ In x (show_bracket b).
Proof.
  intros (H1 & H2 & H3 & H4) Hs Hx Hn. cbn [In] in Hn. unfold show_bracket. rewrite !in_app_iff. cbn [In].
  intros [[Hi|[]]|[Hi|[Hi|[Hi|[[Hi|[]]|Hi]]]]]; try (subst; tauto); revert Hi;
    first [now apply notin_spaces|apply notin_number; [assumption|assumption|intros ->; tauto]].
Qed.
Lemma notin_term x t : wf_term t -> is_space x = false -> is_digit x = false -> ~ In x [43; 45; 46; 177; 92; 112; 109]%N -> ~ In x (show_term t).
Proof.
  intros H Hs Hx Hn. cbn [In] in Hn. destruct t as [mk a e b|a r b c l d]; cbn [wf_term show_term] in *.
  - destruct H as (Hm & H1 & H2 & H3). rewrite !in_app_iff. intros [Hi|[Hi|[Hi|Hi]]].
    + destruct Hm as [E|[E|[E|[]]]]; rewrite <- E in Hi; cbn in Hi; intuition (subst; tauto).
    + revert Hi. now apply notin_spaces.
    + revert Hi. apply notin_number; [assumption|assumption|intros ->; tauto].
    + revert Hi. now apply notin_spaces.
  - destruct H as (H1 & H2 & H3 & H4 & H5 & H6). rewrite !in_app_iff. cbn [In].
    intros [[Hi|[]]|[Hi|[Hi|[Hi|[[Hi|[]]|[Hi|[Hi|Hi]]]]]]]; try (subst; tauto); revert Hi;
      first [now apply notin_spaces|apply notin_number; [assumption|assumption|intros ->; tauto]].
Qed.

(** ** Items *)
Lemma space_no_num a rest : spaces a -> no_num rest -> no_num (a ++ rest).
Proof.
  intros H Hr. destruct a as [|x a]; [exact Hr|]. inversion H; subst. cbn. split.
  - destruct (is_digit x) eqn:Ed; [|reflexivity]. apply digit_not_space in Ed. congruence.
  - intros ->. discriminate.
Qed.
Lemma number_head_space n rest : wf_number n -> head_not Space (show_number n ++ rest).
Proof. intro H. destruct (number_head n H) as [d [r [-> Hd]]]. cbn [app head_not in_cls]. now apply digit_not_space. Qed.

Lemma takes_bracket (g : bool) b rest c : wf_bracket b -> head_not Space rest ->
  takes (cat [ch 40; sp; if g then Grp 1 unum else unum; sp; ch 41; sp]) (show_bracket b) rest c
        (if g then od_set 1 (show_number (b_num b)) c else c).
Proof.
  intros (H1 & H2 & H3 & H4) Hr. unfold show_bracket. rewrite <- (app_nil_r (b_sp3 b)). cbn [cat].
  eapply takes_Cat; [apply takes_ch|].
  eapply takes_Cat.
  { apply takes_sp; [assumption|]. rewrite <- !app_assoc. now apply number_head_space. }
  eapply takes_Cat with (c1 := if g then od_set 1 (show_number (b_num b)) c else c).
  { assert (Hnn : no_num ((b_sp2 b ++ [41%N] ++ b_sp3 b ++ []) ++ rest)).
    { rewrite <- !app_assoc. apply space_no_num; [assumption|]. cbn. split; [reflexivity|discriminate]. }
    destruct g; [apply takes_Grp|]; now apply takes_unum. }
  eapply takes_Cat. { apply takes_sp; [assumption|]. reflexivity. }
  eapply takes_Cat; [apply takes_ch|].
  eapply takes_Cat; [|apply takes_Eps]. apply takes_sp; [assumption|exact Hr].
Qed.
Lemma takes_plus r t ts rest c c1 c' : takes r t (concat ts ++ rest) c c1 -> nomatch r rest -> chain r rest c1 c' ts ->
  takes (plus r) (concat (t :: ts)) rest c c'.
Proof. intros H1 H2 H3. cbn [concat]. unfold plus. eapply takes_Cat; [exact H1|]. now apply takes_Star. Qed.

Lemma bracket_concat_head bs rest : head_not Space rest -> head_not Space (concat (map show_bracket bs) ++ rest).
Proof. intro H. destruct bs; [exact H|]. reflexivity. Qed.
Lemma chain_brackets bs rest c : Forall wf_bracket bs -> head_not Space rest ->
  chain bracket_item rest c c (map show_bracket bs).
Proof.
  intros H Hr. induction H as [|b bs Hb Hbs IH]; [reflexivity|]. cbn [map chain]. split; [discriminate|].
  exists c. split; [|exact IH]. apply (takes_bracket false b _ c Hb). now apply bracket_concat_head.
Qed.

(** ** The bracket pattern *)
Lemma errors_head_facts b t : wf_tail t -> (b = false -> t_sp1 t = []) ->
  head_not Space (after_errors b t) /\ match after_errors b t with [] => True | x :: _ => x <> 40%N /\ memb x pm_class = false end.
Proof.
  intros Hw Hb. pose proof (after_errors_head b t Hw Hb) as H. destruct (after_errors b t) as [|x r]; [split; exact I|].
  cbn [In] in H. repeat (destruct H as [<-|H]; [split; [reflexivity|split; [discriminate|reflexivity]]|]). destruct H.
Qed.
Definition final_caps (T es : str) (o : option power) : caps := set_opt 3 (pow_group o) (od_set 2 es (od_set 1 T [])).
Lemma final_1 T es o : od_get 1 (final_caps T es o) = Some T.
Proof. destruct o; reflexivity. Qed.
Lemma final_2 T es o : od_get 2 (final_caps T es o) = Some es.
Proof. destruct o; reflexivity. Qed.
Lemma final_3 T es o : od_get 3 (final_caps T es o) = pow_group o.
Proof. destruct o; reflexivity. Qed.

Lemma match_brackets b : wf_bracket_string b ->
  re_match pattern_brackets (show_bracket_string b) =
  Some (final_caps (show_sign (neg (s_neg (bs_start b))) ++ show_number (s_num (bs_start b)))
                   (concat (map show_bracket (bs_errors b))) (t_pow (bs_tail b))).
Proof.
  intros (H1 & H2 & H3 & H4 & H5). destruct (errors_head_facts _ _ H4 H5) as [Hh1 Hh2].
  unfold after_errors in Hh1, Hh2.
  assert (E : show_bracket_string b =
    ((show_start (bs_start b) ++ []) ++ (concat (map show_bracket (bs_errors b)) ++ []) ++
     (when (bs_close b) 41 ++ t_sp1 (bs_tail b) ++ when (t_star (bs_tail b)) 42 ++ t_sp2 (bs_tail b) ++ opt_show show_power (t_pow (bs_tail b)) ++ []))
    ++ when (t_nl (bs_tail b)) 10).
  { unfold show_bracket_string, show_tail. rewrite !app_nil_r, <- !app_assoc. reflexivity. }
  rewrite E. apply takes_match.
  eapply (cat_app [sp; opt (ch 40); sp; Grp 1 (Cat (opt (ch 45)) unum); sp]
                  [Grp 2 (plus bracket_item); opt (ch 41); sp; opt (ch 42); sp; pow10 3; End]).
  { rewrite <- !app_assoc. destruct (bs_errors b) as [|e es]; [congruence|]. apply takes_start; [assumption|reflexivity|].
    cbn. split; [reflexivity|discriminate]. }
  eapply (cat_app [Grp 2 (plus bracket_item)]).
  { assert (Er : (when (bs_close b) 41 ++ t_sp1 (bs_tail b) ++ when (t_star (bs_tail b)) 42 ++ t_sp2 (bs_tail b) ++ opt_show show_power (t_pow (bs_tail b)) ++ [])
       ++ when (t_nl (bs_tail b)) 10 = after_errors (bs_close b) (bs_tail b)).
    { unfold after_errors. rewrite show_tail_eq, <- !app_assoc. reflexivity. }
    rewrite Er. cbn [cat]. eapply takes_Cat; [|apply takes_Eps]. apply takes_Grp. cbn [app].
    destruct (bs_errors b) as [|e es]; [congruence|]. inversion H3; subst. cbn [map].
    eapply takes_plus.
    - apply (takes_bracket false); [assumption|]. apply bracket_concat_head. exact Hh1.
    - apply nomatch_Cat, nomatch_ch. unfold after_errors.
      destruct (when (bs_close b) 41 ++ show_tail (bs_tail b)) as [|x r]; [exact I|]. apply Hh2.
    - apply chain_brackets; [assumption|exact Hh1]. }
  apply (takes_close_tail 3 (bs_close b) (bs_tail b)); assumption.
Qed.

(** ** Errors *)
Lemma findall_brackets bs : Forall wf_bracket bs ->
  findall pattern_brackets_err (concat (map show_bracket bs)) = map (fun b => od_set 1 (show_number (b_num b)) []) bs.
Proof.
  intro H. induction H as [|b bs Hb Hbs IH]; [reflexivity|]. cbn [map concat].
  rewrite (findall_hit (c := od_set 1 (show_number (b_num b)) [])); [now rewrite IH| |discriminate].
  apply (takes_bracket true b _ [] Hb). rewrite <- (app_nil_r (concat _)). now apply bracket_concat_head.
Qed.
Lemma isdigit_show n : wf_number n -> isdigit (show_number n) = match frac n with Some _ => false | None => true end.
Proof.
  intros (Hne & Hd & Hf). unfold isdigit, show_number. destruct (frac n) as [f|].
  - rewrite forallb_app. cbn. now rewrite andb_false_r.
  - rewrite app_nil_r. rewrite (neq_eqb Hne). cbn [negb]. rewrite andb_true_r. apply forallb_forall.
    unfold digits in Hd. rewrite Forall_forall in Hd. exact Hd.
Qed.
Lemma until_dot_digits f : digits f -> until_dot f = f.
Proof.
  intro H. induction H as [|x f Hx Hf IH]; [reflexivity|]. cbn [until_dot].
  rewrite neq_eqb; [now rewrite IH|]. intros ->. discriminate.
Qed.
Lemma after_dot_digits d r : digits d -> after_dot (d ++ r) = after_dot r.
Proof.
  intro H. induction H as [|x f Hx Hf IH]; [reflexivity|]. cbn [app after_dot].
  rewrite neq_eqb; [exact IH|]. intros ->. discriminate.
Qed.
Lemma number_decimal_show s n : wf_number n -> number_decimal (show_sign s ++ show_number n) = length (frac_digits n).
Proof.
  intros (Hne & Hd & Hf). unfold number_decimal.
  assert (E : after_dot (show_sign s ++ show_number n) = after_dot (show_number n)) by (destruct s as [[|]|]; reflexivity).
  rewrite E. unfold show_number, frac_digits in *. rewrite after_dot_digits by assumption.
  destruct (frac n) as [f|]; [|reflexivity]. cbn [after_dot]. rewrite eqb_refl, until_dot_digits by assumption. reflexivity.
Qed.

Lemma mapM_map {A B C} (f : B -> result C) (g : A -> B) l : mapM f (map g l) = mapM (fun a => f (g a)) l.
Proof. induction l as [|a l IH]; [reflexivity|]. cbn [map mapM]. now rewrite IH. Qed.
Lemma mapM_all_Ok {A B} (f : A -> result B) (g : A -> B) l : (forall a, In a l -> f a = Ok (g a)) -> mapM f l = Ok (map g l).
Proof.
  induction l as [|a l IH]; intro H; [reflexivity|]. cbn [mapM map]. rewrite (H a (or_introl eq_refl)). cbn [bind].
  rewrite IH; [reflexivity|]. intros x Hx. apply H. now right.
Qed.

Lemma errors_brackets b : wf_bracket_string b ->
  errors_from_string (show_bracket_string b) = Ok (mkErrors (bs_central b) (map (bs_error b) (bs_errors b)) []).
Proof.
  intros Hw. unfold errors_from_string. rewrite match_brackets by exact Hw.
  destruct Hw as (H1 & H2 & H3 & H4 & H5). pose proof H1 as (_ & _ & Hn & _). pose proof H4 as (_ & _ & Hp & _).
  unfold group. rewrite final_1, final_2, final_3. unfold pow_group. rewrite overall_opt by assumption. cbn [bind].
  rewrite float_of_show by assumption. cbn [bind].
  assert (Em : is_some (re_match pattern_brackets_err (concat (map show_bracket (bs_errors b)))) = true).
  { destruct (bs_errors b) as [|e es]; [congruence|]. inversion H3; subst. cbn [map concat].
    erewrite takes_match; [reflexivity|]. apply (takes_bracket true); [assumption|].
    rewrite <- (app_nil_r (concat _)). now apply bracket_concat_head. }
  rewrite Em. rewrite findall_brackets by assumption. rewrite mapM_map.
  rewrite (mapM_all_Ok _ (bs_error b)); [reflexivity|].
  intros e He. rewrite Forall_forall in H3. destruct (H3 e He) as (_ & Hne & _).
  change (od_get 1 (od_set 1 (show_number (b_num e)) [])) with (Some (show_number (b_num e))). cbv iota.
  rewrite (float_of_spaces [] (b_num e) (Forall_nil _) Hne : float_of (show_number (b_num e)) = _). cbn [bind].
  rewrite isdigit_show by assumption. rewrite number_decimal_show by assumption. unfold bs_error.
  destruct (frac (b_num e)); cbn [negb]; [reflexivity|]. unfold Qcdiv. rewrite p10_neg by lia. reflexivity.
Qed.

(** dispatch: none of the other patterns *)
Lemma no_upper s : ~ In 60%N s -> re_match pattern_upperlimit s = None.
Proof. intro H. apply (needs_none 60%N); [reflexivity|exact H]. Qed.
Lemma no_range s : ~ In 91%N s -> re_match pattern_range s = None.
Proof. intro H. apply (needs_none 91%N); [reflexivity|exact H]. Qed.
Lemma no_timesby s : ~ In 47%N s -> re_match pattern_timesby s = None.
Proof. intro H. apply (needs_none 47%N); [reflexivity|exact H]. Qed.

Lemma mk_all_normal cv l : Forall (fun e => Qclt c0 e) l -> mapM (mkNormal cv) l = Ok (map (Normal cv) l).
Proof.
  intro H. apply mapM_all_Ok. intros e He. rewrite Forall_forall in H. specialize (H e He).
  unfold mkNormal, Qcleb, Qcltb. destruct (Qclt_le_dec c0 e) as [_|Hc]; [reflexivity|].
  exfalso. exact (Qclt_not_le _ _ H Hc).
Qed.
Lemma mk_some_normal cv l : Exists (fun e => Qcle e c0) l -> mapM (mkNormal cv) l = Err ValueError.
Proof.
  intro H. assert (D : forall e, (Qcle e c0 /\ mkNormal cv e = Err ValueError) \/ mkNormal cv e = Ok (Normal cv e)).
  { intro e. unfold mkNormal, Qcleb, Qcltb. destruct (Qclt_le_dec c0 e); cbn [negb]; auto. }
  induction H as [e l H|e l H IH]; cbn [mapM].
  - unfold mkNormal, Qcleb, Qcltb. destruct (Qclt_le_dec c0 e) as [Hc|_]; [exfalso; exact (Qclt_not_le _ _ Hc H)|]. reflexivity.
  - destruct (D e) as [[_ ->]| ->]; cbn [bind]; [reflexivity|]. now rewrite IH.
Qed.
