From Coq Require Import QArith Qcanon.
From Verif Require Import Base BaseLemmas Regex Parsing_Model Parsing_Spec Parsing_Proofs Parsing_Proofs2 Parsing_Proofs3 Parsing_Proofs4 Parsing_Proofs5.
Close Scope Q_scope. Close Scope Qc_scope.

(** ** What a successful match implies for every string *)
Fixpoint consumes (r : re) : bool :=
  match r with
  | Chr _ => true
  | Cat a b => consumes a || consumes b
  | Or a b => consumes a && consumes b
  | Grp _ a => consumes a
  | _ => false
  end.
Lemma M_length r s c s' c' : M r s c s' c' -> length s' <= length s.
Proof. intro H. destruct (M_prefix H) as [t ->]. rewrite app_length. lia. Qed.
Lemma consumes_length r s c s' c' : consumes r = true -> M r s c s' c' -> length s' < length s.
Proof.
  intros Hn HM. induction HM as [p y s c H|s c|a b s c s1 c1 s2 c2 H1 IH1 H2 IH2|a b s c s' c' H IH|a b s c s' c' H IH
    |a s c|a s c s1 c1 s2 c2 H1 IH1 Hl H2 IH2|n a s c s' c' H IH|s c H]; cbn [consumes] in Hn; try discriminate.
  - cbn. lia.
  - apply M_length in H1 as L1. apply M_length in H2 as L2. apply orb_true_iff in Hn. destruct Hn as [Hn|Hn].
    + specialize (IH1 Hn). lia.
    + specialize (IH2 Hn). lia.
  - apply andb_true_iff in Hn. now apply IH.
  - apply andb_true_iff in Hn. now apply IH.
  - now apply IH.
Qed.
Lemma match_rest_some r s : re_match r s <> None -> exists s' c, re_match_rest r s = Some (s', c) /\ M r s [] s' c.
Proof.
  unfold re_match, re_match_rest. intro H. destruct (m r s [] (fun _ c => Some c)) as [y|] eqn:E; [|congruence].
  apply m_sound in E. destruct E as [s' [c' [HM _]]].
  destruct (m r s [] (fun s'0 c => Some (s'0, c))) as [[s1 c1]|] eqn:E2.
  - exists s1, c1. split; [reflexivity|]. apply m_sound in E2. destruct E2 as [s2 [c2 [HM2 E3]]]. now injection E3 as -> ->.
  - exfalso. revert E2. apply (m_complete (fun s'0 c => Some (s'0, c)) HM). cbn beta. congruence.
Qed.
Lemma findall_nonempty r s : consumes r = true -> re_match r s <> None -> findall r s <> [].
Proof.
  intros Hc H. destruct (match_rest_some r s H) as [s' [c [E HM]]]. apply consumes_length in HM; [|exact Hc].
  unfold findall. destruct s as [|x s]; [cbn in HM; lia|]. cbn [length findall_fuel]. rewrite E.
  apply Nat.ltb_lt in HM. cbn [length] in HM. cbn [length]. rewrite HM. discriminate.
Qed.
Lemma mapM_nonempty {A B} (f : A -> result B) l l' : l <> [] -> mapM f l = Ok l' -> l' <> [].
Proof.
  destruct l as [|a l]; [congruence|]. intros _. cbn [mapM]. destruct (f a); [|discriminate]. cbn [bind].
  destruct (mapM f l); [|discriminate]. cbn [bind]. intro H. injection H as <-. discriminate.
Qed.
Lemma mapM_err {A B} (f : A -> result B) l e : (forall a e, f a = Err e -> e = ValueError) -> mapM f l = Err e -> e = ValueError.
Proof.
  intro H. induction l as [|a l IH]; [discriminate|]. cbn [mapM]. destruct (f a) eqn:E; cbn [bind].
  - destruct (mapM f l); [discriminate|]. cbn [bind]. intro X. apply IH. exact X.
  - intro X. injection X as <-. eapply H; eassumption.
Qed.

(** Patterns without [End] match their text whatever follows. *)
Fixpoint endless (r : re) : bool :=
  match r with
  | Cat a b | Or a b => endless a && endless b
  | Star a | Grp _ a => endless a
  | End => false
  | _ => true
  end.
Lemma M_suffix r s c s' c' : endless r = true -> M r s c s' c' -> forall t w, s = t ++ s' -> M r (t ++ w) c w c'.
Proof.
  intros He HM. induction HM as [p y s c H|s c|a b s c s1 c1 s2 c2 H1 IH1 H2 IH2|a b s c s' c' H IH|a b s c s' c' H IH
    |a s c|a s c s1 c1 s2 c2 H1 IH1 Hl H2 IH2|n a s c s' c' H IH|s c H]; cbn [endless] in He; try discriminate; intros t w E.
  - assert (t = [y]) as -> by (apply (app_inv_tail s); now rewrite <- E). now constructor.
  - assert (t = []) as -> by (apply (app_inv_tail s); now rewrite <- E). constructor.
  - apply andb_true_iff in He. destruct He as [He1 He2]. destruct (M_prefix H1) as [t1 ->]. destruct (M_prefix H2) as [t2 ->].
    assert (t = t1 ++ t2) as -> by (apply (app_inv_tail s2); now rewrite <- E, <- app_assoc).
    rewrite <- app_assoc. eapply M_Cat; [now apply (IH1 He1)|now apply (IH2 He2)].
  - apply andb_true_iff in He. apply M_OrL, IH; tauto.
  - apply andb_true_iff in He. apply M_OrR, IH; tauto.
  - assert (t = []) as -> by (apply (app_inv_tail s); now rewrite <- E). constructor.
  - destruct (M_prefix H1) as [t1 ->]. destruct (M_prefix H2) as [t2 ->].
    assert (t = t1 ++ t2) as -> by (apply (app_inv_tail s2); now rewrite <- E, <- app_assoc).
    rewrite <- app_assoc. rewrite !app_length in Hl. eapply M_StarS; [now apply (IH1 He)| |now apply (IH2 He)].
    rewrite !app_length. lia.
  - subst s. rewrite between_app. pose proof (M_Grp n (IH He t w eq_refl)) as G. now rewrite between_app in G.
Qed.
(** forgetting the groups *)
Fixpoint plain_re (r : re) : re :=
  match r with
  | Cat a b => Cat (plain_re a) (plain_re b)
  | Or a b => Or (plain_re a) (plain_re b)
  | Star a => Star (plain_re a)
  | Grp _ a => plain_re a
  | _ => r
  end.
Lemma M_plain r r' s c s' c' : plain_re r = plain_re r' -> M (plain_re r) s c s' c' -> forall d, exists d', M r' s d s' d'.
Proof.
  intro E. rewrite E. clear E. remember (plain_re r') as p eqn:Ep. intro HM. revert r' Ep.
  induction HM as [p y s c H|s c|a b s c s1 c1 s2 c2 H1 IH1 H2 IH2|a b s c s' c' H IH|a b s c s' c' H IH
    |a s c|a s c s1 c1 s2 c2 H1 IH1 Hl H2 IH2|n a s c s' c' H IH|s c H]; intro r'.
  all: induction r'; cbn [plain_re]; intros Ep d; try discriminate;
    try (match goal with IHr' : _ = _ -> _ |- exists d', M (Grp _ _) _ _ _ d' => destruct (IHr' Ep d) as [d' Hd]; eexists; constructor; exact Hd end).
  - injection Ep as ->. eexists. now constructor.
  - eexists. constructor.
  - injection Ep as -> ->. destruct (IH1 _ eq_refl d) as [d1 Hd1]. destruct (IH2 _ eq_refl d1) as [d2 Hd2]. eexists. eapply M_Cat; eassumption.
  - injection Ep as -> ->. destruct (IH _ eq_refl d) as [d1 Hd1]. eexists. eapply M_OrL; eassumption.
  - injection Ep as -> ->. destruct (IH _ eq_refl d) as [d1 Hd1]. eexists. eapply M_OrR; eassumption.
  - eexists. constructor.
  - injection Ep as ->. destruct (IH1 _ eq_refl d) as [d1 Hd1]. destruct (IH2 (Star r') eq_refl d1) as [d2 Hd2]. eexists. eapply M_StarS; eassumption.
  - eexists. now constructor.
Qed.
Lemma M_match r s c s' c' : M r s c s' c' -> forall r', plain_re r = plain_re r' -> re_match r' s <> None.
Proof.
  intros HM r' E. unfold re_match.
  assert (HM' : exists d, M (plain_re r) s [] s' d).
  { clear E. generalize (@nil (nat * str)) as d0. induction HM as [p y s c H|s c|a b s c s1 c1 s2 c2 H1 IH1 H2 IH2|a b s c s' c' H IH|a b s c s' c' H IH
    |a s c|a s c s1 c1 s2 c2 H1 IH1 Hl H2 IH2|n a s c s' c' H IH|s c H]; intro d0; cbn [plain_re].
    - eexists. now constructor.
    - eexists. constructor.
    - destruct (IH1 d0) as [d1 Hd1]. destruct (IH2 d1) as [d2 Hd2]. eexists. eapply M_Cat; eassumption.
    - destruct (IH d0) as [d1 Hd1]. eexists. eapply M_OrL; eassumption.
    - destruct (IH d0) as [d1 Hd1]. eexists. eapply M_OrR; eassumption.
    - eexists. constructor.
    - destruct (IH1 d0) as [d1 Hd1]. destruct (IH2 d1) as [d2 Hd2]. eexists. eapply M_StarS; eassumption.
    - apply IH.
    - eexists. now constructor. }
  destruct HM' as [d Hd]. destruct (M_plain _ r' _ _ _ _ E Hd []) as [d' Hd']. apply (m_complete (fun _ c => Some c) Hd'). cbn beta. congruence.
Qed.
(** groups set before and not set again keep their value *)
Fixpoint sets (n : nat) (r : re) : bool :=
  match r with
  | Cat a b | Or a b => sets n a || sets n b
  | Star a => sets n a
  | Grp k a => eqb n k || sets n a
  | _ => false
  end.
Lemma M_keeps n r s c s' c' : sets n r = false -> M r s c s' c' -> od_get n c' = od_get n c.
Proof.
  intros Hn HM. induction HM as [p y s c H|s c|a b s c s1 c1 s2 c2 H1 IH1 H2 IH2|a b s c s' c' H IH|a b s c s' c' H IH
    |a s c|a s c s1 c1 s2 c2 H1 IH1 Hl H2 IH2|k a s c s' c' H IH|s c H]; cbn [sets] in Hn;
    try (apply orb_false_iff in Hn; destruct Hn as [Hn1 Hn2]).
  - reflexivity.
  - reflexivity.
  - rewrite IH2, IH1; auto.
  - now apply IH.
  - now apply IH.
  - reflexivity.
  - rewrite IH2, IH1; auto.
  - rewrite od_get_set_ne; auto. intros ->. rewrite eqb_refl in Hn1. discriminate.
  - reflexivity.
Qed.
Lemma M_cat_inv l1 l2 s c s' c' : M (cat (l1 ++ l2)) s c s' c' -> exists s1 c1, M (cat l1) s c s1 c1 /\ M (cat l2) s1 c1 s' c'.
Proof.
  revert s c. induction l1 as [|r l1 IH]; intros s c H; cbn [app cat] in *.
  - exists s, c. split; [constructor|exact H].
  - inversion H as [| |? ? ? ? s1 c1 ? ? M1 M2| | | | | |]; subst. destruct (IH _ _ M2) as [s2 [c2 [M3 M4]]].
    exists s2, c2. split; [eapply M_Cat; eassumption|exact M4].
Qed.
(** the error part of a string in bracket notation starts with a bracketed error *)
Lemma brackets_errors s c : re_match pattern_brackets s = Some c -> re_match pattern_brackets_err (group 2 c) <> None.
Proof.
  unfold re_match at 1. intro E. apply m_sound in E. destruct E as [s' [c' [HM E]]]. injection E as ->.
  apply (M_cat_inv [sp; opt (ch 40); sp; Grp 1 (Cat (opt (ch 45)) unum); sp]
                   [Grp 2 (plus bracket_item); opt (ch 41); sp; opt (ch 42); sp; pow10 3; End]) in HM.
  destruct HM as [s1 [c1 [_ HM]]].
  apply (M_cat_inv [Grp 2 (plus bracket_item)]) in HM. destruct HM as [s2 [c2 [HM1 HM2]]].
  apply (M_keeps 2) in HM2; [|reflexivity]. unfold group. rewrite HM2. clear HM2 c.
  cbn [cat] in HM1. inversion HM1 as [| |? ? ? ? s3 c3 ? ? M1 M2| | | | | |]; subst. inversion M2; subst. clear M2 HM1.
  inversion M1 as [| | | | | | |? ? ? ? ? c4 M3|]; subst. clear M1. rewrite od_get_set_eq.
  destruct (M_prefix M3) as [t ->]. rewrite between_app. unfold plus in M3.
  inversion M3 as [| |? ? ? ? s4 c5 ? ? M4 M5| | | | | |]; subst. destruct (M_prefix M5) as [t2 ->]. destruct (M_prefix M4) as [t1 E].
  assert (t = t1 ++ t2) as -> by (apply (app_inv_tail s2); now rewrite <- app_assoc).
  apply (M_suffix bracket_item _ _ _ _ eq_refl M4 t1 t2) in E. eapply M_match; [exact E|reflexivity].
Qed.

Lemma overall_err g e : overall g = Err e -> e = ValueError.
Proof. unfold overall. destruct g as [t|]; [|discriminate]. destruct (py_float t) as [[]|]; congruence. Qed.
Lemma float_of_err g e : float_of g = Err e -> e = ValueError.
Proof. unfold float_of. destruct (py_float g) as [[]|]; congruence. Qed.
Lemma float_expo_err g o e : float_expo g o = Err e -> e = ValueError.
Proof. destruct o; apply float_of_err. Qed.
Lemma normal_err cv x e : mkNormal cv x = Err e -> e = ValueError.
Proof. unfold mkNormal. destruct (Qcleb x c0); congruence. Qed.
Lemma asym_err cv x y e : mkAsym cv x y = Err e -> e = ValueError.
Proof. unfold mkAsym. destruct (Qcleb x c0 || Qcleb y c0); congruence. Qed.

(** the error part starts with a symmetric or an asymmetric error *)
Definition starts_with_error (es : str) : Prop :=
  re_match pattern_symmetric_err es <> None \/ re_match pattern_asymmetric_err es <> None.

Ltac inv_bind H v E := match type of H with (do _ <- ?x; _) = _ => destruct x as [v|] eqn:E; cbn [bind] in H; [|injection H as <-] end.

Lemma errors_cases s r : errors_from_string s = r ->
  match r with
  | Ok e => symmetric_errors e <> [] \/ asymmetric_errors e <> [] \/
            (re_match pattern_brackets s = None /\ symmetric_errors e = [] /\ asymmetric_errors e = [] /\
             exists c, re_match pattern_plusminus s = Some c /\ ~ starts_with_error (group 2 c))
  | Err e => e = ValueError
  end.
Proof.
  unfold errors_from_string. intro H.
  destruct (match re_match pattern_brackets s with Some c => Some c | None => re_match pattern_plusminus s end) as [c|] eqn:Em;
    [|subst r; reflexivity].
  destruct (overall (od_get 3 c)) as [f|] eqn:Ef; cbn [bind] in H; [|subst r; now apply overall_err in Ef].
  destruct (float_of (group 1 c)) as [v|] eqn:Ev; cbn [bind] in H; [|subst r; now apply float_of_err in Ev].
  destruct (re_match pattern_brackets_err (group 2 c)) as [cb|] eqn:Eb; cbn [is_some] in H.
  { match type of H with (do _ <- ?x; _) = _ => destruct x as [sy|] eqn:Es; cbn [bind] in H end; subst r.
    - left. eapply mapM_nonempty; [|exact Es]. apply findall_nonempty; [reflexivity|congruence].
    - revert Es. apply mapM_err. intros a e0. destruct (float_of (group 1 a)) eqn:E; cbn [bind]; [discriminate|].
      intro X. injection X as <-. now apply float_of_err in E. }
  assert (Enb : re_match pattern_brackets s = None).
  { destruct (re_match pattern_brackets s) as [c'|] eqn:E; [|reflexivity]. injection Em as ->.
    apply brackets_errors in E. congruence. }
  rewrite Enb in Em.
  destruct (is_some (re_match pattern_symmetric_err (group 2 c)) || is_some (re_match pattern_asymmetric_err (group 2 c))) eqn:Eo.
  - match type of H with (do _ <- ?x; _) = _ => destruct x as [sy|] eqn:Es; cbn [bind] in H end.
    + match type of H with (do _ <- ?x; _) = _ => destruct x as [asy|] eqn:Ea; cbn [bind] in H end; subst r.
      * cbn [symmetric_errors asymmetric_errors]. apply orb_true_iff in Eo. destruct Eo as [Eo|Eo]; [left|right; left].
        -- eapply mapM_nonempty; [|exact Es]. apply findall_nonempty; [reflexivity|].
           destruct (re_match pattern_symmetric_err (group 2 c)); [discriminate|discriminate Eo].
        -- eapply mapM_nonempty; [|exact Ea]. apply findall_nonempty; [reflexivity|].
           destruct (re_match pattern_asymmetric_err (group 2 c)); [discriminate|discriminate Eo].
      * revert Ea. apply mapM_err. intros a e0. destruct (float_of (group 1 a)) eqn:E; cbn [bind].
        -- destruct (float_of (group 2 a)) eqn:E'; cbn [bind]; [discriminate|]. intro X. injection X as <-. now apply float_of_err in E'.
        -- intro X. injection X as <-. now apply float_of_err in E.
    + subst r. revert Es. apply mapM_err. intros a e0. destruct (float_of (group 1 a)) eqn:E; cbn [bind]; [discriminate|].
      intro X. injection X as <-. now apply float_of_err in E.
  - subst r. right; right. cbn [symmetric_errors asymmetric_errors]. repeat split; auto. exists c. split; [exact Em|].
    apply orb_false_iff in Eo. intros [Hs|Hs]; [destruct (re_match pattern_symmetric_err (group 2 c))|destruct (re_match pattern_asymmetric_err (group 2 c))];
      cbn in Eo; intuition congruence.
Qed.

Lemma set_cases s :
  match set_constraint_string s with
  | Ok l => l <> []
  | Err ValueError => True
  | Err IndexError => exists c, re_match pattern_plusminus (dash s) = Some c /\ ~ starts_with_error (group 2 c)
  | Err AttributeError => In 8722%N s /\ exists v, py_float (dash s) = Some v
  | Err _ => False
  end.
Proof.
  unfold set_constraint_string, constraints_from_string.
  destruct (py_float s) as [v|] eqn:E0; [discriminate|]. cbv zeta.
  destruct (py_float (dash s)) as [v|] eqn:E1.
  { cbn [bind]. split; [|now exists v]. destruct (in_dec N.eq_dec 8722%N s) as [Hi|Hi]; [exact Hi|]. rewrite dash_id in E1 by exact Hi. congruence. }
  destruct (re_match pattern_upperlimit (dash s)) as [c|] eqn:E2; cbn [is_some].
  { unfold limit_from_string. rewrite E2. destruct (float_expo (group 1 c) (od_get 2 c)) as [l|] eqn:El; cbn [bind].
    - destruct (float_of (group 3 c)) as [cl|] eqn:Ec; cbn [bind].
      + unfold mkUpperLimit. cbn [fst snd]. repeat (match goal with |- context [if ?b then _ else _] => destruct b end; cbn [bind]; try exact I; try discriminate).
      + apply float_of_err in Ec. now subst.
    - apply float_expo_err in El. now subst. }
  destruct (re_match pattern_range (dash s)) as [c|] eqn:E3; cbn [is_some].
  { unfold range_from_string. rewrite E3. destruct (float_expo (group 1 c) (od_get 2 c)) as [l|] eqn:El; cbn [bind]; [|apply float_expo_err in El; now subst].
    destruct (float_expo (group 3 c) (od_get 4 c)) as [h|] eqn:Eh; cbn [bind]; [|apply float_expo_err in Eh; now subst].
    destruct (Qcltb h l); cbn [bind]; [exact I|].
    destruct (overall (od_get 5 c)) as [o|] eqn:Eo; cbn [bind]; [discriminate|apply overall_err in Eo; now subst]. }
  destruct (re_match pattern_timesby (dash s)) as [c|] eqn:E4; cbn [is_some].
  { unfold lognormal_from_string. rewrite E4. destruct (float_expo (group 1 c) (od_get 2 c)) as [l|] eqn:El; cbn [bind].
    - destruct (float_of (group 3 c)) as [cl|] eqn:Ec; cbn [bind].
      + unfold mkLogNormal. cbn [fst snd]. repeat (match goal with |- context [if ?b then _ else _] => destruct b end; cbn [bind]; try exact I; try discriminate).
      + apply float_of_err in Ec. now subst.
    - apply float_expo_err in El. now subst. }
  destruct (is_some (re_match pattern_brackets (dash s)) || is_some (re_match pattern_plusminus (dash s))); [|exact I].
  pose proof (errors_cases (dash s) _ eq_refl) as Hc. destruct (errors_from_string (dash s)) as [e|e]; cbn [bind]; [|subst e; exact I].
  destruct (mapM (mkNormal (central_value e)) (symmetric_errors e)) as [sy|x] eqn:Es; cbn [bind].
  - match goal with |- context [mapM ?f (asymmetric_errors e)] => destruct (mapM f (asymmetric_errors e)) as [asy|x] eqn:Ea; cbn [bind] end.
    + destruct (sy ++ asy) as [|d l] eqn:El; [|discriminate]. apply app_eq_nil in El. destruct El as [-> ->].
      destruct Hc as [Hc|[Hc|(_ & _ & _ & Hc)]]; [|  |exact Hc]; exfalso.
      * exact (mapM_nonempty _ _ _ Hc Es eq_refl).
      * exact (mapM_nonempty _ _ _ Hc Ea eq_refl).
    + apply mapM_err in Ea; [now subst|]. intros a e'. apply asym_err.
  - apply mapM_err in Es; [now subst|]. intros a e'. apply normal_err.
Qed.
