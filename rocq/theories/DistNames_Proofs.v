(** * Proofs about the names of distributions *)
From Verif Require Import Base BaseLemmas Regex Parsing_Model DistNames_Model DistNames_Spec.

(** ** re.sub *)
Lemma sub_fuel_more r : forall n s n', length s <= n -> length s <= n' -> sub_fuel n r s = sub_fuel n' r s.
Proof.
  induction n as [|n IH]; intros s n' H H'.
  - destruct s; cbn in *; [|lia]. destruct n'; reflexivity.
  - destruct s as [|x s]; [destruct n'; reflexivity|]. destruct n' as [|n']; [cbn in H'; lia|].
    cbn [sub_fuel]. cbn [length] in H, H'. destruct (re_match_rest r (x :: s)) as [[s' c]|] eqn:E.
    + destruct (Nat.ltb_spec (length s') (length (x :: s))) as [Hl|Hl].
      * cbn [length] in Hl. do 3 f_equal. apply IH; lia.
      * f_equal. apply IH; lia.
    + f_equal. apply IH; lia.
Qed.
Lemma sub_hit r t rest c : takes r t rest [] c -> t <> [] ->
  sub r (t ++ rest) = group 1 c ++ 95%N :: group 2 c ++ sub r rest.
Proof.
  intros H Hne. unfold sub. rewrite app_length. destruct t as [|x t]; [congruence|].
  change ((x :: t) ++ rest) with (x :: (t ++ rest)) in *. cbn [length Nat.add sub_fuel].
  assert (E : re_match_rest r (x :: t ++ rest) = Some (rest, c)) by (apply (takes_match_rest H)).
  rewrite E. cbn [length]. rewrite app_length.
  replace (length rest <? S (length t + length rest)) with true by (symmetry; apply Nat.ltb_lt; lia).
  do 3 f_equal. apply sub_fuel_more; lia.
Qed.
Lemma sub_skip r x rest : nomatch r (x :: rest) -> sub r (x :: rest) = x :: sub r rest.
Proof. intros H. unfold sub. cbn [length sub_fuel]. now rewrite (nomatch_rest H). Qed.
Lemma nomatch_grp1 n p b x s : nomatch b s -> nomatch (Cat (Grp n (Chr p)) b) (x :: s).
Proof. intros H X c k. cbn [m]. destruct (in_cls p x); [apply H|reflexivity]. Qed.
Lemma nomatch_chr p b x s : nomatch b s -> nomatch (Cat (Chr p) b) (x :: s).
Proof. intros H X c k. cbn [m]. destruct (in_cls p x); [apply H|reflexivity]. Qed.
Lemma nomatch_nil_cat n p b : nomatch (Cat (Grp n (Chr p)) b) [].
Proof. intros X c k. reflexivity. Qed.

(** ** Letters *)
Lemma memb_range a k c : memb c (map N.of_nat (seq a k)) = true <-> (N.of_nat a <= c < N.of_nat (a + k))%N.
Proof.
  rewrite memb_In, in_map_iff. split.
  - intros (i & <- & H). apply in_seq in H. lia.
  - intro H. exists (N.to_nat c). split; [apply N2Nat.id|]. apply in_seq. lia.
Qed.
Lemma upper_in c : memb c uppers = true <-> is_upper c.
Proof. unfold uppers. rewrite memb_range. unfold is_upper. change (N.of_nat (65 + 26)) with 91%N. change (N.of_nat 65) with 65%N. lia. Qed.
Lemma lower_in c : memb c lowers = true <-> is_lower c.
Proof. unfold lowers. rewrite memb_range. unfold is_lower. change (N.of_nat (97 + 26)) with 123%N. change (N.of_nat 97) with 97%N. lia. Qed.
Lemma upper_lower_false c : is_upper c -> memb c lowers = false.
Proof. intro H. destruct (memb c lowers) eqn:E; [|reflexivity]. apply lower_in in E. unfold is_upper, is_lower in *. lia. Qed.
Lemma lower_upper_false c : is_lower c -> memb c uppers = false.
Proof. intro H. destruct (memb c uppers) eqn:E; [|reflexivity]. apply upper_in in E. unfold is_upper, is_lower in *. lia. Qed.

(** ** The first substitution *)
Definition head_upper (s : str) : Prop := match s with [] => True | x :: _ => is_upper x end.
(** matches nowhere inside lower case letters *)
Lemma p1_skip_nil x : sub pattern1 [x] = [x].
Proof. rewrite sub_skip; [reflexivity|]. apply nomatch_grp1, nomatch_Grp, nomatch_Cat, nomatch_Chr. exact I. Qed.
Lemma p1_skip_lower x y s : is_lower y -> sub pattern1 (x :: y :: s) = x :: sub pattern1 (y :: s).
Proof.
  intro H. apply sub_skip, nomatch_grp1, nomatch_Grp, nomatch_Cat, nomatch_Chr.
  cbn [head_not in_cls]. now apply lower_upper_false.
Qed.
Lemma p1_skip_uu x y s : head_upper s -> sub pattern1 (x :: y :: s) = x :: sub pattern1 (y :: s).
Proof.
  intro H. apply sub_skip, nomatch_grp1, nomatch_Grp, nomatch_chr, nomatch_Cat, nomatch_Chr.
  destruct s as [|z s]; [exact I|]. cbn [head_not in_cls]. now apply upper_lower_false.
Qed.
Lemma p1_hit x c l rest : x <> 10%N -> is_upper c -> l <> [] -> Forall is_lower l -> head_upper rest ->
  sub pattern1 (x :: (c :: l) ++ rest) = x :: 95%N :: c :: l ++ sub pattern1 rest.
Proof.
  intros Hx Hc Hne Hl Hr.
  change (x :: (c :: l) ++ rest) with (([x] ++ (c :: l)) ++ rest).
  rewrite (@sub_hit pattern1 ([x] ++ (c :: l)) rest (od_set 2 (c :: l) (od_set 1 [x] []))); [reflexivity| |discriminate].
  unfold pattern1. apply takes_Cat with (c1 := od_set 1 [x] []).
  - apply takes_Grp, takes_Chr. cbn [in_cls]. apply negb_true_iff. now apply neq_eqb.
  - apply takes_Grp. change (c :: l) with ([c] ++ l). apply takes_Cat with (c1 := od_set 1 [x] []).
    + apply takes_Chr. now apply upper_in.
    + unfold plus. destruct l as [|y l]; [congruence|]. inversion Hl as [|? ? Hy Hl']; subst.
      change (y :: l) with ([y] ++ l). apply takes_Cat with (c1 := od_set 1 [x] []).
      * apply takes_Chr. now apply lower_in.
      * apply takes_star_cls.
        -- unfold all_cls. eapply Forall_impl; [|exact Hl']. intros a Ha. now apply lower_in.
        -- destruct rest as [|z rest]; [exact I|]. cbn [head_not in_cls]. now apply upper_lower_false.
Qed.

(** underscores between some of the pieces: at least after acronyms *)
Inductive seps : list piece -> str -> Prop :=
| seps_one p : seps [p] (camel p)
| seps_cons p q ps r sep : seps (q :: ps) r -> sep = [95%N] \/ (sep = [] /\ is_acronym p = false) ->
    seps (p :: q :: ps) (camel p ++ sep ++ r).

Lemma camel_upper p : wf_piece p -> exists c r, camel p = c :: r /\ is_upper c.
Proof.
  destruct p as [c l|l]; cbn [wf_piece camel].
  - intros (H & _). now exists c, l.
  - intros (Hne & H). destruct l as [|c l]; [congruence|]. inversion H; subst. now exists c, l.
Qed.
Lemma camel_name_upper ps : wf_pieces ps -> head_upper (camel_name ps).
Proof.
  destruct ps as [|p ps]; [intros _; exact I|]. intros (Hp & _). unfold camel_name. cbn [map concat].
  destruct (camel_upper p Hp) as (c & r & -> & Hc). exact Hc.
Qed.
(** within a word, up to its last letter *)
Lemma p1_word x l y rest : Forall is_lower l -> is_lower y ->
  sub pattern1 (x :: l ++ y :: rest) = x :: l ++ sub pattern1 (y :: rest).
Proof.
  intros Hl Hy. revert x. induction Hl as [|z l Hz Hl IH]; intro x; cbn [app].
  - now apply p1_skip_lower.
  - rewrite p1_skip_lower by assumption. now rewrite IH.
Qed.
(** within an acronym, up to its last letter *)
Lemma p1_acronym x l y rest : is_upper x -> Forall is_upper l -> is_upper y -> head_upper rest ->
  sub pattern1 (x :: l ++ y :: rest) = x :: l ++ sub pattern1 (y :: rest).
Proof.
  intros Hx Hl Hy Hr. revert x Hx. induction Hl as [|z l Hz Hl IH]; intros x Hx; cbn [app].
  - now apply p1_skip_uu.
  - rewrite p1_skip_uu.
    + now rewrite IH.
    + destruct l as [|w l]; cbn [app]; [exact Hy|]. now inversion Hl.
Qed.
Lemma snoc_cases {A} (l : list A) : l = [] \/ exists l' y, l = l' ++ [y].
Proof. induction l using rev_ind; [now left|right]. eauto. Qed.

(** a piece is copied up to its last letter *)
Lemma p1_piece p : wf_piece p -> exists t y, camel p = t ++ [y] /\ y <> 10%N /\
  (is_acronym p = true -> is_upper y) /\ (is_acronym p = false -> is_lower y) /\
  forall rest, head_upper rest -> sub pattern1 (camel p ++ rest) = t ++ sub pattern1 (y :: rest).
Proof.
  destruct p as [c l|l]; cbn [wf_piece camel is_acronym].
  - intros (Hc & Hne & Hl). destruct (snoc_cases l) as [->|(l' & y & ->)]; [congruence|].
    apply Forall_app in Hl as (Hl & Hy). inversion Hy as [|? ? Hy' _]; subst.
    exists (c :: l'), y. split; [reflexivity|]. split; [unfold is_lower in Hy'; lia|]. split; [discriminate|]. split; [now intros _|].
    intros rest Hr. change ((c :: l' ++ [y]) ++ rest) with (c :: (l' ++ [y]) ++ rest). rewrite <- app_assoc. cbn [app].
    now apply p1_word.
  - intros (Hne & Hl). destruct (snoc_cases l) as [->|(l' & y & ->)]; [congruence|].
    apply Forall_app in Hl as (Hl & Hy). inversion Hy as [|? ? Hy' _]; subst.
    exists l', y. split; [reflexivity|]. split; [unfold is_upper in Hy'; lia|]. split; [now intros _|]. split; [discriminate|].
    intros rest Hr. rewrite <- app_assoc. cbn [app]. destruct l' as [|x l']; [reflexivity|].
    inversion Hl; subst. now apply p1_acronym.
Qed.
Lemma camel_name_cons p ps : camel_name (p :: ps) = camel p ++ camel_name ps.
Proof. reflexivity. Qed.

Lemma pass1 : forall n ps, length ps <= n -> wf_pieces ps -> ps <> [] -> seps ps (sub pattern1 (camel_name ps)).
Proof.
  induction n as [|n IH]; intros ps Hn Hwf Hne; [destruct ps; cbn in Hn; [congruence|lia]|].
  destruct ps as [|p ps]; [congruence|]. destruct Hwf as (Hp & Hadj & Hwf).
  destruct (p1_piece p Hp) as (t & y & Et & Hy & Hya & Hyw & Hsub).
  rewrite camel_name_cons, Hsub by now apply camel_name_upper.
  destruct ps as [|q ps].
  - unfold camel_name. cbn [map concat]. rewrite p1_skip_nil, <- Et. constructor.
  - destruct Hwf as (Hq & Hadj' & Hwf'). rewrite camel_name_cons.
    destruct q as [c l|l].
    + (* a word follows *)
      cbn [camel]. destruct Hq as (Hc & Hl0 & Hl). rewrite p1_hit; try assumption; [|now apply camel_name_upper].
      assert (E : seps (Word c l :: ps) ((c :: l) ++ sub pattern1 (camel_name ps))).
      { destruct ps as [|q ps].
        - unfold camel_name. cbn [map concat]. change (sub pattern1 []) with (@nil N). rewrite app_nil_r. apply (seps_one (Word c l)).
        - change (sub pattern1 (camel_name (q :: ps))) with ([] ++ sub pattern1 (camel_name (q :: ps))).
          apply (seps_cons (Word c l)); [|right; split; reflexivity]. apply IH; [cbn [length] in *; lia|exact Hwf'|discriminate]. }
      change (y :: 95%N :: c :: l ++ sub pattern1 (camel_name ps)) with ([y] ++ [95%N] ++ (c :: l) ++ sub pattern1 (camel_name ps)).
      rewrite app_assoc, <- Et. apply seps_cons; [exact E|now left].
    + (* an acronym follows *)
      assert (Hpw : is_acronym p = false) by (destruct p; [reflexivity|discriminate]).
      destruct Hq as (Hl0 & Hl). cbn [camel]. destruct l as [|u l]; [congruence|]. inversion Hl as [|? ? Hu Hl']; subst.
      cbn [app]. rewrite p1_skip_uu.
      2:{ destruct l as [|v l]; cbn [app]; [now apply camel_name_upper|]. now inversion Hl'. }
      replace (t ++ y :: sub pattern1 (u :: l ++ camel_name ps)) with (camel p ++ [] ++ sub pattern1 (camel_name (Acronym (u :: l) :: ps))).
      2:{ rewrite Et, <- app_assoc. reflexivity. }
      apply seps_cons; [|right; split; [reflexivity|exact Hpw]].
      apply IH; [cbn [length] in *; lia| |discriminate]. split; [split; [discriminate|exact Hl]|]. split; assumption.
Qed.

(** ** The second substitution *)
Lemma digit_range_ c : memb c digits_ = true <-> (48 <= c < 58)%N.
Proof. unfold digits_. rewrite memb_range. change (N.of_nat (48 + 10)) with 58%N. change (N.of_nat 48) with 48%N. reflexivity. Qed.
Lemma memb_app c a b : memb c (a ++ b) = memb c a || memb c b.
Proof. unfold memb. apply existsb_app. Qed.
Lemma p2_skip_upper x s : is_upper x -> sub pattern2 (x :: s) = x :: sub pattern2 s.
Proof.
  intro H. apply sub_skip, nomatch_Cat, nomatch_Grp, nomatch_Chr. cbn [head_not in_cls]. rewrite memb_app, (upper_lower_false _ H). cbn [orb].
  destruct (memb x digits_) eqn:E; [|reflexivity]. apply digit_range_ in E. unfold is_upper in H. lia.
Qed.
Lemma p2_skip_us s : sub pattern2 (95%N :: s) = 95%N :: sub pattern2 s.
Proof. apply sub_skip, nomatch_Cat, nomatch_Grp, nomatch_Chr. vm_compute. reflexivity. Qed.
Lemma p2_skip_next x s : (match s with [] => True | y :: _ => memb y uppers = false end) -> sub pattern2 (x :: s) = x :: sub pattern2 s.
Proof. intro H. apply sub_skip, nomatch_grp1, nomatch_Grp, nomatch_Chr. destruct s; [exact I|exact H]. Qed.
Lemma p2_hit x c s : is_lower x -> is_upper c -> sub pattern2 (x :: c :: s) = x :: 95%N :: c :: sub pattern2 s.
Proof.
  intros Hx Hc. change (x :: c :: s) with (([x] ++ [c]) ++ s).
  rewrite (@sub_hit pattern2 ([x] ++ [c]) s (od_set 2 [c] (od_set 1 [x] []))); [reflexivity| |discriminate].
  unfold pattern2. apply takes_Cat with (c1 := od_set 1 [x] []).
  - apply takes_Grp, takes_Chr. cbn [in_cls]. rewrite memb_app. apply orb_true_iff. left. now apply lower_in.
  - apply takes_Grp, takes_Chr. now apply upper_in.
Qed.
Lemma p2_uppers l s : Forall is_upper l -> sub pattern2 (l ++ s) = l ++ sub pattern2 s.
Proof. induction 1 as [|x l Hx Hl IH]; [reflexivity|]. cbn [app]. rewrite p2_skip_upper by assumption. now rewrite IH. Qed.
Lemma p2_lowers l y s : Forall is_lower l -> is_lower y -> sub pattern2 (l ++ y :: s) = l ++ sub pattern2 (y :: s).
Proof.
  intros Hl Hy. induction Hl as [|x l Hx Hl IH]; [reflexivity|]. cbn [app]. rewrite p2_skip_next; [now rewrite IH|].
  destruct l as [|z l]; cbn [app]; [now apply lower_upper_false|]. inversion Hl; subst. now apply lower_upper_false.
Qed.
(** a piece followed by an underscore or the end *)
Lemma p2_piece p s : wf_piece p -> (match s with [] => True | y :: _ => y = 95%N end) ->
  sub pattern2 (camel p ++ s) = camel p ++ sub pattern2 s.
Proof.
  destruct p as [c l|l]; cbn [wf_piece camel].
  - intros (Hc & Hne & Hl) Hs. cbn [app]. rewrite p2_skip_upper by assumption. f_equal.
    destruct (snoc_cases l) as [->|(l' & y & ->)]; [congruence|]. apply Forall_app in Hl as (Hl & Hy). inversion Hy; subst.
    rewrite <- !app_assoc. cbn [app]. rewrite p2_lowers by assumption. f_equal. apply p2_skip_next.
    destruct s as [|z s]; [exact I|]. subst z. reflexivity.
  - intros (Hne & Hl) Hs. now apply p2_uppers.
Qed.
(** a word directly followed by a piece: the first letter of that is read, too *)
Lemma p2_word c l d s : is_upper c -> l <> [] -> Forall is_lower l -> is_upper d ->
  sub pattern2 ((c :: l) ++ d :: s) = (c :: l) ++ 95%N :: sub pattern2 (d :: s).
Proof.
  intros Hc Hne Hl Hd. cbn [app]. rewrite p2_skip_upper by assumption. f_equal.
  destruct (snoc_cases l) as [->|(l' & y & ->)]; [congruence|]. apply Forall_app in Hl as (Hl & Hy). inversion Hy; subst.
  rewrite <- !app_assoc. cbn [app]. rewrite p2_lowers by assumption. f_equal. rewrite p2_hit by assumption.
  now rewrite p2_skip_upper.
Qed.
Lemma seps_head ps r : wf_pieces ps -> seps ps r -> exists d s, r = d :: s /\ is_upper d.
Proof.
  intros Hwf H. destruct H as [p|p q ps r sep H Hs]; destruct Hwf as (Hp & _); destruct (camel_upper p Hp) as (c & t & E & Hc); rewrite E; cbn [app]; eauto.
Qed.
Lemma pass2 ps r : wf_pieces ps -> seps ps r -> sub pattern2 r = underscores (map camel ps).
Proof.
  intros Hwf H. induction H as [p|p q ps r sep H IH Hs].
  - destruct Hwf as (Hp & _). rewrite <- (app_nil_r (camel p)) at 1. rewrite p2_piece by (assumption || exact I). cbn. apply app_nil_r.
  - destruct Hwf as (Hp & Hadj & Hwf). specialize (IH Hwf).
    change (underscores (map camel (p :: q :: ps))) with (camel p ++ 95%N :: underscores (map camel (q :: ps))). rewrite <- IH.
    destruct Hs as [->|(-> & Hw)].
    + rewrite p2_piece by (assumption || reflexivity). cbn [app]. now rewrite p2_skip_us.
    + destruct p as [c l|l]; [|discriminate]. destruct Hp as (Hc & Hne & Hl). destruct (seps_head _ _ Hwf H) as (d & s & -> & Hd).
      exact (p2_word c l d s Hc Hne Hl Hd).
Qed.

(** ** Small letters *)
Lemma lower_small p : wf_piece p -> map lower (camel p) = small p.
Proof.
  assert (Hlow : forall l, Forall is_lower l -> map lower l = l).
  { intros l H. induction H as [|x l Hx Hl IH]; [reflexivity|]. cbn [map]. rewrite IH. f_equal. unfold lower.
    unfold is_lower in Hx. destruct (N.leb_spec x 90); [lia|]. now rewrite andb_false_r. }
  assert (Hup : forall x, is_upper x -> lower x = (x + 32)%N).
  { intros x H. unfold lower. unfold is_upper in H. destruct (N.leb_spec 65 x), (N.leb_spec x 90); try lia. reflexivity. }
  destruct p as [c l|l]; cbn [wf_piece camel small].
  - intros (Hc & Hne & Hl). cbn [map]. now rewrite Hup, Hlow.
  - intros (_ & Hl). apply map_ext_in. intros a Ha. apply Hup. rewrite Forall_forall in Hl. now apply Hl.
Qed.
Lemma wf_each ps : wf_pieces ps -> Forall wf_piece ps.
Proof. induction ps as [|p ps IH]; intro H; [constructor|]. destruct H as (Hp & _ & H). constructor; auto. Qed.
Lemma map_underscores l : map lower (underscores l) = underscores (map (map lower) l).
Proof.
  induction l as [|w l IH]; [reflexivity|]. destruct l as [|w' l]; [reflexivity|].
  change (underscores (w :: w' :: l)) with (w ++ 95%N :: underscores (w' :: l)). rewrite map_app. cbn [map]. rewrite IH. reflexivity.
Qed.
Lemma camel_snake ps : wf_pieces ps -> camel_to_underscore (camel_name ps) = underscores (map small ps).
Proof.
  intro Hwf. unfold camel_to_underscore. destruct ps as [|p ps]; [reflexivity|].
  rewrite (pass2 (p :: ps) _ Hwf (pass1 _ _ (le_n _) Hwf ltac:(discriminate))), map_underscores, map_map. f_equal.
  apply map_ext_in. intros a Ha. apply lower_small. pose proof (wf_each _ Hwf) as Hf. rewrite Forall_forall in Hf. now apply Hf.
Qed.

(** ** Removing "_distribution" *)
Lemma small_lower p : wf_piece p -> small p <> [] /\ Forall is_lower (small p).
Proof.
  assert (Hup : forall x, is_upper x -> is_lower (x + 32)%N) by (unfold is_upper, is_lower; intros; lia).
  destruct p as [c l|l]; cbn [wf_piece small].
  - intros (Hc & _ & Hl). split; [discriminate|]. constructor; auto.
  - intros (Hne & Hl). split; [destruct l; [congruence|discriminate]|]. apply Forall_map. eapply Forall_impl; [|exact Hl]. exact Hup.
Qed.
Notation udist := (lit "_distribution").
Lemma remove_word w s : Forall is_lower w -> remove udist 0 (w ++ s) = w ++ remove udist 0 s.
Proof.
  induction 1 as [|x w Hx Hw IH]; [reflexivity|]. cbn [app remove].
  replace (is_prefix udist (x :: w ++ s)) with false; [now rewrite IH|].
  symmetry. change udist with (95%N :: distribution). cbn [is_prefix]. replace (eqb 95%N x) with false; [reflexivity|].
  symmetry. apply neq_eqb. unfold is_lower in Hx. lia.
Qed.
Lemma remove_skip old a s : remove old (length a) (a ++ s) = remove old 0 s.
Proof. induction a as [|x a IH]; cbn [length app remove]; [destruct s; reflexivity|exact IH]. Qed.
Lemma is_prefix_app p s : is_prefix p s = true <-> exists t, s = p ++ t.
Proof.
  revert s. induction p as [|x p IH]; intros s; cbn [is_prefix app]; [split; [now exists s|reflexivity]|].
  destruct s as [|y s]; [split; [discriminate|intros [t H]; discriminate]|].
  rewrite andb_true_iff, IH. split.
  - intros (E & t & ->). apply eqb_true in E. subst. now exists t.
  - intros (t & E). injection E as -> ->. split; [apply eqb_refl|now exists t].
Qed.
Lemma dist_lower : Forall is_lower distribution.
Proof. unfold distribution, is_lower. repeat constructor; vm_compute; discriminate. Qed.
Lemma app_us_inj a b s t : Forall is_lower a -> Forall is_lower b ->
  (match s with [] => True | y :: _ => y = 95%N end) -> a ++ s = b ++ t -> (exists r, a = b ++ r).
Proof.
  intros Ha Hb Hs. revert b Hb. induction Ha as [|x a Hx Ha IH]; intros b Hb E.
  - destruct b as [|y b]; [now exists []|]. cbn [app] in E. destruct s as [|z s]; [discriminate|]. subst z. injection E as <- E.
    inversion Hb; subst. unfold is_lower in *. lia.
  - destruct b as [|y b]; [now exists (x :: a)|]. injection E as <- E. inversion Hb; subst.
    destruct (IH b H2 E) as [r ->]. now exists r.
Qed.
Lemma remove_rest ws : Forall (fun w => w <> [] /\ Forall is_lower w) ws ->
  (forall w q r, In w ws -> w = distribution ++ q :: r -> False) ->
  forall w0, Forall is_lower w0 ->
  remove udist 0 (underscores (w0 :: ws)) = underscores (w0 :: filter (fun x => negb (eqb x distribution)) ws).
Proof.
  intros Hws Hclean. induction ws as [|w ws IH]; intros w0 H0.
  - cbn [underscores filter]. rewrite <- (app_nil_r w0) at 1. rewrite remove_word by assumption. cbn [remove]. apply app_nil_r.
  - inversion Hws as [|? ? (Hne & Hw) Hws']; subst.
    assert (Hclean' : forall w q r, In w ws -> w = distribution ++ q :: r -> False) by (intros w' q r Hi; apply (Hclean w' q r); now right).
    specialize (IH Hws' Hclean').
    change (underscores (w0 :: w :: ws)) with (w0 ++ 95%N :: underscores (w :: ws)).
    rewrite remove_word by assumption.
    assert (Hrest : exists s, underscores (w :: ws) = w ++ s /\ match s with [] => True | y :: _ => y = 95%N end).
    { destruct ws as [|w' ws]; [exists []|exists (95%N :: underscores (w' :: ws))]; cbn; split; auto. now rewrite app_nil_r. }
    destruct Hrest as (s & Es & Hs).
    change (filter (fun x => negb (eqb x distribution)) (w :: ws)) with
      (if negb (eqb w distribution) then w :: filter (fun x => negb (eqb x distribution)) ws else filter (fun x => negb (eqb x distribution)) ws).
    destruct (eqb_spec w distribution) as [Ew|Ew]; cbn [negb].
    + cbn [remove]. replace (is_prefix udist (95%N :: underscores (w :: ws))) with true.
      2:{ symmetry. apply is_prefix_app. exists s. rewrite Es, Ew. reflexivity. }
      rewrite Es, Ew. change (length udist - 1) with (length distribution). rewrite remove_skip.
      destruct ws as [|w' ws].
      * cbn [underscores filter] in *. assert (s = []) as -> by (apply (app_inv_head w); rewrite app_nil_r; congruence). cbn. apply app_nil_r.
      * change (underscores (w :: w' :: ws)) with (w ++ 95%N :: underscores (w' :: ws)) in Es. apply app_inv_head in Es. subst s.
        rewrite <- (IH w0 H0). change (underscores (w0 :: w' :: ws)) with (w0 ++ 95%N :: underscores (w' :: ws)). now rewrite remove_word.
    + cbn [remove]. replace (is_prefix udist (95%N :: underscores (w :: ws))) with false.
      2:{ symmetry. destruct (is_prefix udist (95%N :: underscores (w :: ws))) eqn:E; [|reflexivity]. exfalso.
          apply is_prefix_app in E as (t & E). rewrite Es in E. change (95%N :: w ++ s = 95%N :: (distribution ++ t)) in E. apply (f_equal (@tl N)) in E. change (w ++ s = distribution ++ t) in E.
          destruct (app_us_inj _ _ _ _ Hw dist_lower Hs E) as ([|q r] & Er); [rewrite app_nil_r in Er; congruence|].
          apply (Hclean w q r); [now left|exact Er]. }
      rewrite (IH w Hw). reflexivity.
Qed.
Lemma class_to_string_camel id subs ps : wf_pieces ps -> clean ps ->
  class_to_string (Class id (camel_name ps) subs) = underscore_name ps.
Proof.
  intros Hwf Hc. unfold class_to_string. cbn [class_name]. rewrite camel_snake by assumption. unfold underscore_name.
  destruct ps as [|p ps]; [reflexivity|]. cbn [map]. apply remove_rest.
  - apply Forall_map. eapply Forall_impl; [|apply (wf_each ps)]; [|apply Hwf]. intros a Ha. now apply small_lower.
  - intros w q r Hi E. apply in_map_iff in Hi as (x & <- & Hi). now apply (Hc x q r).
  - destruct Hwf as (Hp & _). now apply small_lower.
Qed.

(** ** The dictionary and the search *)
Lemma od_build_get {V} (key : V -> str) l : NoDup (map key l) -> forall d x, In x l ->
  od_get (key x) (fold_left (fun d c => od_set (key c) c d) l d) = Some x.
Proof.
  induction l as [|y l IH]; intros Hnd d x Hx; [destruct Hx|]. cbn [map] in Hnd. inversion Hnd as [|? ? Hn Hnd']; subst. cbn [fold_left].
  destruct Hx as [<-|Hx]; [|now apply IH].
  clear IH. revert Hn. generalize (od_set (key y) y d), (od_get_set_eq (key y) y d). clear Hnd Hnd'.
  induction l as [|z l IH]; intros d' Hd Hn; [exact Hd|]. cbn [fold_left]. apply IH; [|intro; apply Hn; now right].
  rewrite od_get_set_ne; [exact Hd|]. intro E. apply Hn. left. now rewrite E.
Qed.
Lemma od_build_none {V} (key : V -> str) l : forall d k, od_get k d = None -> ~ In k (map key l) ->
  od_get k (fold_left (fun d c => od_set (key c) c d) l d) = None.
Proof.
  induction l as [|y l IH]; intros d k Hd Hk; [exact Hd|]. cbn [fold_left]. apply IH; [|intro; apply Hk; now right].
  rewrite od_get_set_ne; [exact Hd|]. intro E. apply Hk. left. now rewrite E.
Qed.
Lemma find_first {V} (key : V -> str) l x : NoDup (map key l) -> In x l -> List.find (fun c => eqb (key c) (key x)) l = Some x.
Proof.
  induction l as [|y l IH]; intros Hnd Hx; [destruct Hx|]. cbn [map] in Hnd. inversion Hnd as [|? ? Hn Hnd']; subst. cbn [List.find].
  destruct (eqb_spec (key y) (key x)) as [E|E].
  - destruct Hx as [->|Hx]; [reflexivity|]. exfalso. apply Hn. rewrite E. now apply in_map.
  - destruct Hx as [->|Hx]; [congruence|]. now apply IH.
Qed.
