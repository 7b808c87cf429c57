From Coq Require Import QArith Qcanon.
From Verif Require Import Base BaseLemmas Regex Parsing_Model Parsing_Spec Parsing_Proofs.
Close Scope Q_scope. Close Scope Qc_scope.

(** ** Tokens *)
Lemma ch_cls x y : in_cls (Set_ [x]) y = eqb y x.
Proof. cbn. unfold memb. cbn. apply orb_false_r. Qed.
Lemma takes_ch x rest c : takes (ch x) [x] rest c c.
Proof. apply takes_Chr. rewrite ch_cls. apply eqb_refl. Qed.
Lemma nomatch_ch x s : match s with [] => True | y :: _ => y <> x end -> nomatch (ch x) s.
Proof. intro H. apply nomatch_Chr. destruct s as [|y s]; [exact I|]. unfold head_not. rewrite ch_cls. now apply neq_eqb. Qed.
Lemma takes_word w rest c : takes (word w) w rest c c.
Proof.
  induction w as [|x w IH]; cbn [word]; [apply takes_Eps|].
  change (x :: w) with ([x] ++ w). eapply takes_Cat; [apply takes_ch|exact IH].
Qed.
Lemma takes_sp t rest c : spaces t -> head_not Space rest -> takes sp t rest c c.
Proof. intros H1 H2. apply takes_star_cls; assumption. Qed.
Lemma takes_digits1 d rest c : d <> [] -> digits d -> head_not Digit rest -> takes digits1 d rest c c.
Proof.
  intros Hne Hd Hr. unfold digits1, plus. destruct d as [|x d]; [congruence|]. inversion Hd; subst.
  change (x :: d) with ([x] ++ d). eapply takes_Cat; [now apply takes_Chr|]. now apply takes_star_cls.
Qed.
Lemma takes_opt_some r t rest c c' : takes r t rest c c' -> takes (opt r) t rest c c'.
Proof. apply takes_OrL. Qed.
Lemma takes_opt_none r rest c : nomatch r rest -> takes (opt r) [] rest c c.
Proof. intro H. apply takes_OrR; [exact H|apply takes_Eps]. Qed.
Lemma takes_opt_ch x b rest c : (b = false -> match rest with [] => True | y :: _ => y <> x end) ->
  takes (opt (ch x)) (when b x) rest c c.
Proof.
  intro H. destruct b; cbn [when]; [apply takes_opt_some, takes_ch|]. apply takes_opt_none, nomatch_ch. now apply H.
Qed.
Definition no_num (s : str) : Prop := match s with [] => True | x :: _ => is_digit x = false /\ x <> 46%N end.
Lemma takes_unum n rest c : wf_number n -> no_num rest -> takes unum (show_number n) rest c c.
Proof.
  intros (Hne & Hd & Hf) Hr. unfold unum, show_number, frac_digits in *. destruct (frac n) as [f|].
  - eapply takes_Cat with (c1 := c); [apply takes_digits1; auto; reflexivity|].
    change (46%N :: f) with ([46%N] ++ f). eapply takes_Cat with (c1 := c).
    + apply takes_opt_some, takes_ch.
    + apply takes_star_cls; [assumption|]. destruct rest; [exact I|]. apply Hr.
  - eapply takes_Cat with (c1 := c).
    + apply takes_digits1; auto. destruct rest; [exact I|]. apply Hr.
    + change (@nil N) with (@nil N ++ []). eapply takes_Cat with (c1 := c).
      * apply takes_opt_none, nomatch_ch. destruct rest; [exact I|]. apply Hr.
      * apply takes_star_cls; [constructor|]. destruct rest; [exact I|]. apply Hr.
Qed.
Lemma digit_head n rest x : wf_number n -> is_digit x = false ->
  match show_number n ++ rest with [] => False | y :: _ => y <> x /\ is_space y = false /\ is_digit y = true end.
Proof.
  intros Hn Hx. destruct (number_head n Hn) as [d [s [-> Hd]]]. cbn [app].
  split; [intros ->; congruence|]. split; [now apply digit_not_space|exact Hd].
Qed.
Lemma takes_snum (l : list N) (s : option bool) n rest c : wf_number n -> no_num rest ->
  (forall b, s = Some b -> memb (if b then 45%N else 43%N) l = true) -> (forall d, is_digit d = true -> memb d l = false) ->
  takes (Cat (opt (Chr (Set_ l))) unum) (show_sign s ++ show_number n) rest c c.
Proof.
  intros Hn Hr Hs Hl. eapply takes_Cat with (c1 := c); [|now apply takes_unum].
  destruct s as [b|].
  - specialize (Hs b eq_refl). destruct b; cbn [show_sign]; apply takes_opt_some, takes_Chr; exact Hs.
  - cbn [show_sign]. apply takes_opt_none, nomatch_Chr. destruct (number_head n Hn) as [d [t [-> Hd]]].
    cbn [app head_not in_cls]. now apply Hl.
Qed.
Lemma digit_notin l d : (forall x, In x l -> is_digit x = false) -> is_digit d = true -> memb d l = false.
Proof. intros H Hd. apply memb_notIn. intro Hi. apply H in Hi. congruence. Qed.
Lemma sign_nodigit d : is_digit d = true -> memb d sign = false.
Proof. apply digit_notin. intros x [<-|[<-|[]]]; reflexivity. Qed.
Lemma minus_nodigit d : is_digit d = true -> memb d [45%N] = false.
Proof. apply digit_notin. intros x [<-|[]]; reflexivity. Qed.
Lemma takes_sign_unum s n rest c : wf_number n -> no_num rest ->
  takes (Cat (opt (Chr (Set_ sign))) unum) (show_sign s ++ show_number n) rest c c.
Proof. intros Hn Hr. apply takes_snum; auto; [intros [|] _; reflexivity|apply sign_nodigit]. Qed.
Lemma takes_neg_unum b n rest c : wf_number n -> no_num rest ->
  takes (Cat (opt (ch 45)) unum) (show_sign (neg b) ++ show_number n) rest c c.
Proof.
  intros Hn Hr. apply takes_snum; auto; [|apply minus_nodigit].
  intros x. destruct b; cbn [neg]; intro E; [injection E as <-; reflexivity|discriminate].
Qed.
Lemma takes_sign_digits s d rest c : d <> [] -> digits d -> head_not Digit rest ->
  takes (Cat (opt (Chr (Set_ sign))) digits1) (show_sign s ++ d) rest c c.
Proof.
  intros Hne Hd Hr. eapply takes_Cat with (c1 := c); [|now apply takes_digits1].
  destruct s as [[|]|]; cbn [show_sign].
  - apply takes_opt_some, takes_Chr. reflexivity.
  - apply takes_opt_some, takes_Chr. reflexivity.
  - apply takes_opt_none, nomatch_Chr. destruct d as [|x d]; [congruence|]. inversion Hd; subst. cbn [app head_not in_cls].
    now apply sign_nodigit.
Qed.
Lemma takes_expo e rest c : wf_expo e -> head_not Digit rest -> takes expo (show_expo e) rest c c.
Proof.
  intros (Hc & Hne & Hd) Hr. unfold expo, show_expo.
  change (e_char e :: show_sign (e_sign e) ++ e_digits e) with ([e_char e] ++ (show_sign (e_sign e) ++ e_digits e)).
  eapply takes_Cat with (c1 := c); [|now apply takes_sign_digits].
  apply takes_Chr. apply memb_In. exact Hc.
Qed.
Definition set_opt (n : nat) (o : option str) (c : caps) : caps := match o with Some t => od_set n t c | None => c end.
Lemma takes_opt_expo n o rest c : opt_wf wf_expo o -> head_not Digit rest ->
  (o = None -> match rest with [] => True | x :: _ => ~ In x eE end) ->
  takes (opt (Grp n expo)) (opt_show show_expo o) rest c (set_opt n (option_map show_expo o) c).
Proof.
  intros Ho Hr Hn. destruct o as [e|]; cbn [opt_show option_map set_opt].
  - apply takes_opt_some, takes_Grp. now apply takes_expo.
  - apply takes_opt_none, nomatch_Grp. unfold expo. apply nomatch_Cat, nomatch_Chr.
    specialize (Hn eq_refl). destruct rest as [|x r]; [exact I|]. cbn [head_not in_cls]. now apply memb_notIn.
Qed.

(** power of ten *)
Lemma power_prefix_head p rest : wf_power p ->
  exists x r, show_power p ++ rest = x :: r /\ In x [101; 69; 49]%N.
Proof.
  intros (Hp & _). unfold show_power. rewrite <- !app_assoc.
  destruct Hp as [<-|[<-|[<-|[<-|[<-|[]]]]]]; cbn; eexists _, _; (split; [reflexivity|]); tauto.
Qed.
Lemma takes_pow10 n o rest c : opt_wf wf_power o -> rest = [] \/ rest = [10%N] -> (o = None -> rest = []) ->
  takes (pow10 n) (opt_show show_power o) rest c
        (set_opt n (option_map (fun p => show_sign (p_sign p) ++ p_digits p) o) c).
Proof.
  intros Ho Hr Hn. destruct o as [p|]; cbn [opt_show option_map set_opt].
  - destruct Ho as (Hp & Hne & Hd). unfold pow10. apply takes_opt_some. unfold show_power.
    eapply takes_Cat with (c1 := c).
    { destruct Hp as [<-|[<-|[<-|[<-|[<-|[]]]]]].
      - apply takes_OrL, takes_ch.
      - apply takes_OrR; [apply nomatch_ch; discriminate|]. apply takes_OrL, takes_ch.
      - apply takes_OrR; [apply nomatch_ch; discriminate|]. apply takes_OrR; [apply nomatch_ch; discriminate|].
        apply takes_OrL. apply takes_word.
      - apply takes_OrR; [apply nomatch_ch; discriminate|]. apply takes_OrR; [apply nomatch_ch; discriminate|].
        apply takes_OrR; [intros X c' k; reflexivity|]. apply takes_OrL. apply takes_word.
      - apply takes_OrR; [apply nomatch_ch; discriminate|]. apply takes_OrR; [apply nomatch_ch; discriminate|].
        apply takes_OrR; [intros X c' k; reflexivity|]. apply takes_OrR; [intros X c' k; reflexivity|]. apply takes_word. }
    eapply takes_Cat with (c1 := c).
    { apply takes_opt_ch. intros _. rewrite <- app_assoc.
      destruct (p_sign p) as [[|]|]; cbn [show_sign app]; try discriminate.
      destruct (p_digits p) as [|x d]; [congruence|]. inversion Hd; subst. cbn [app]. intros ->. discriminate. }
    rewrite <- (app_nil_r (when (p_close p) 41)).
    eapply takes_Cat.
    { apply takes_Grp. apply takes_sign_digits; auto. rewrite app_nil_r. destruct (p_close p); cbn [when app]; [reflexivity|].
      destruct Hr as [-> | ->]; [exact I|reflexivity]. }
    eapply takes_Cat; [|apply takes_Eps]. apply takes_opt_ch. intros _.
    cbn [app]. destruct Hr as [-> | ->]; [exact I|discriminate].
  - rewrite Hn by reflexivity. unfold pow10. apply takes_opt_none. intros X c' k. reflexivity.
Qed.

(** the tail: sp, optional star, sp, power, end *)
Definition pow_group (o : option power) : option str := option_map (fun p => show_sign (p_sign p) ++ p_digits p) o.
Lemma takes_end (b : bool) c : takes (Cat End Eps) [] (when b 10) c c.
Proof.
  change (@nil N) with (@nil N ++ []). eapply takes_Cat with (c1 := c); [|apply takes_Eps].
  destruct b; [apply takes_End_nl|apply takes_End_nil].
Qed.
Lemma power_head_space p rest : wf_power p -> head_not Space (show_power p ++ rest).
Proof.
  intro H. destruct (power_prefix_head p rest H) as [x [r [-> Hx]]]. cbn [head_not in_cls].
  destruct Hx as [<-|[<-|[<-|[]]]]; reflexivity.
Qed.
(** heads of the tail *)
Lemma pow_nl_head t : wf_tail t ->
  match opt_show show_power (t_pow t) ++ when (t_nl t) 10 with [] => True | x :: _ => In x [101; 69; 49]%N end.
Proof.
  intros (_ & _ & Hp & _ & Hnl). destruct (t_pow t) as [p|].
  - destruct (power_prefix_head p (when (t_nl t) 10) Hp) as [x [r [E Hx]]]. cbn [opt_show]. now rewrite E.
  - rewrite Hnl by reflexivity. exact I.
Qed.
Lemma pow_nl_space t : wf_tail t -> head_not Space (opt_show show_power (t_pow t) ++ when (t_nl t) 10).
Proof.
  intro H. pose proof (pow_nl_head t H) as Hh.
  destruct (opt_show show_power (t_pow t) ++ when (t_nl t) 10) as [|x r]; [exact I|].
  destruct Hh as [<-|[<-|[<-|[]]]]; reflexivity.
Qed.
Lemma app4 {A} (a b c d : list A) : (a ++ b ++ c ++ d) = a ++ b ++ c ++ d. Proof. reflexivity. Qed.
Lemma takes_tail n t c : wf_tail t ->
  takes (cat [sp; opt (ch 42); sp; pow10 n; End])
        (t_sp1 t ++ when (t_star t) 42 ++ t_sp2 t ++ opt_show show_power (t_pow t) ++ []) (when (t_nl t) 10) c
        (set_opt n (pow_group (t_pow t)) c).
Proof.
  intro Hw. pose proof (pow_nl_head t Hw) as Hh. pose proof (pow_nl_space t Hw) as Hs.
  destruct Hw as (H1 & H2 & H3 & H4 & H5). cbn [cat]. rewrite app_nil_r.
  set (P := opt_show show_power (t_pow t)) in *. set (E := when (t_nl t) 10) in *.
  eapply takes_Cat with (c1 := c).
  { apply takes_sp; [assumption|]. destruct (t_star t); cbn [when app]; [reflexivity|]. rewrite H4 by reflexivity. exact Hs. }
  eapply takes_Cat with (c1 := c).
  { apply takes_opt_ch. intro Eb. rewrite H4 by assumption. cbn [app]. destruct (P ++ E) as [|x r]; [exact I|].
    intros ->. destruct Hh as [Hx|[Hx|[Hx|[]]]]; discriminate. }
  eapply takes_Cat with (c1 := c).
  { apply takes_sp; [assumption|]. exact Hs. }
  rewrite <- (app_nil_r P). eapply takes_Cat; [|apply takes_end].
  apply takes_pow10; [exact H3| |].
  - cbn [app]. subst E. destruct (t_nl t); auto.
  - cbn [app]. intro Hn. subst E. now rewrite H5.
Qed.
(** the whole tail, closing bracket included *)
Lemma takes_close_tail n b t c : wf_tail t -> (b = false -> t_sp1 t = []) ->
  takes (cat [opt (ch 41); sp; opt (ch 42); sp; pow10 n; End])
        (when b 41 ++ t_sp1 t ++ when (t_star t) 42 ++ t_sp2 t ++ opt_show show_power (t_pow t) ++ []) (when (t_nl t) 10) c
        (set_opt n (pow_group (t_pow t)) c).
Proof.
  intros Hw Hb. cbn [cat]. eapply takes_Cat with (c1 := c); [|apply (takes_tail n t c Hw)].
  apply takes_opt_ch. intro Eb. rewrite Hb by assumption. cbn [app]. rewrite app_nil_r, <- !app_assoc.
  pose proof (pow_nl_head t Hw) as Hh. destruct Hw as (_ & _ & _ & H4 & _).
  destruct (t_star t); cbn [when app]; [discriminate|]. rewrite H4 by reflexivity. cbn [app].
  destruct (opt_show show_power (t_pow t) ++ when (t_nl t) 10) as [|x r]; [exact I|].
  intros ->. destruct Hh as [Hx|[Hx|[Hx|[]]]]; discriminate.
Qed.
Lemma show_tail_eq t : show_tail t = (t_sp1 t ++ when (t_star t) 42 ++ t_sp2 t ++ opt_show show_power (t_pow t) ++ []) ++ when (t_nl t) 10.
Proof. unfold show_tail. rewrite app_nil_r, <- !app_assoc. reflexivity. Qed.

(** head of everything after the errors *)
Definition after_errors (b : bool) (t : tail) : str := when b 41 ++ show_tail t.
Lemma after_errors_head b t : wf_tail t -> (b = false -> t_sp1 t = []) ->
  match after_errors b t with [] => True | x :: _ => In x [41; 42; 101; 69; 49]%N end.
Proof.
  intros Hw Hb. unfold after_errors. destruct b; cbn [when app]; [now left|]. unfold show_tail.
  rewrite Hb by reflexivity. cbn [app]. pose proof (pow_nl_head t Hw) as Hh. destruct Hw as (_ & _ & _ & H4 & _).
  destruct (t_star t); cbn [when app]; [right; now left|]. rewrite H4 by reflexivity. cbn [app].
  destruct (opt_show show_power (t_pow t) ++ when (t_nl t) 10) as [|x r]; [exact I|]. cbn [In] in *. tauto.
Qed.

(** the start *)
Lemma takes_start s rest c : wf_start s -> head_not Space rest -> no_num rest ->
  takes (cat [sp; opt (ch 40); sp; Grp 1 (Cat (opt (ch 45)) unum); sp]) (show_start s ++ []) rest c
        (od_set 1 (show_sign (neg (s_neg s)) ++ show_number (s_num s)) c).
Proof.
  intros (H1 & H2 & H3 & H4 & H5) Hr1 Hr2.
  remember (show_sign (neg (s_neg s)) ++ show_number (s_num s)) as T eqn:ET.
  assert (Es : show_start s ++ [] = s_sp1 s ++ when (s_open s) 40 ++ s_sp2 s ++ T ++ s_sp3 s ++ []).
  { unfold show_start. rewrite <- ET. rewrite <- !app_assoc. reflexivity. }
  rewrite Es. clear Es. cbn [cat].
  assert (HN : forall r, exists x y, T ++ r = x :: y /\ is_space x = false /\ x <> 40%N).
  { intro r. subst T. destruct (number_head _ H3) as [d [u [-> Hd]]]. destruct (s_neg s); cbn [neg show_sign app].
    - eexists _, _. split; [reflexivity|]. split; [reflexivity|discriminate].
    - eexists _, _. split; [reflexivity|]. split; [now apply digit_not_space|intros ->; discriminate]. }
  assert (HNs : forall r, head_not Space (T ++ r)).
  { intro r. destruct (HN r) as [x [y [-> [Hx _]]]]. exact Hx. }
  eapply takes_Cat with (c1 := c).
  { apply takes_sp; [assumption|]. destruct (s_open s); cbn [when app]; [reflexivity|].
    rewrite H5 by reflexivity. cbn [app]. rewrite <- !app_assoc. apply HNs. }
  eapply takes_Cat with (c1 := c).
  { apply takes_opt_ch. intro Eo. rewrite H5 by assumption. cbn [app]. rewrite <- !app_assoc.
    destruct (HN (s_sp3 s ++ [] ++ rest)) as [x [y [E [_ Hx]]]]. rewrite E. exact Hx. }
  eapply takes_Cat with (c1 := c).
  { apply takes_sp; [assumption|]. rewrite <- !app_assoc. apply HNs. }
  eapply takes_Cat with (t1 := T).
  { apply takes_Grp. rewrite ET. apply takes_neg_unum; [assumption|]. destruct (s_sp3 s) as [|x r] eqn:E; [exact Hr2|].
    cbn [app no_num]. inversion H4; subst. split.
    - destruct (is_digit x) eqn:Ed; [|reflexivity]. apply digit_not_space in Ed. congruence.
    - intros ->. discriminate. }
  eapply takes_Cat; [|apply takes_Eps]. apply takes_sp; [assumption|exact Hr1].
Qed.
Lemma cat_app l1 l2 t1 t2 rest c ca c2 :
  takes (cat l1) t1 (t2 ++ rest) c ca -> takes (cat l2) t2 rest ca c2 -> takes (cat (l1 ++ l2)) (t1 ++ t2) rest c c2.
Proof.
  revert t1 c. assert (G : forall X (l1 l2 : list re) s c (k : str -> caps -> option X),
    m (cat (l1 ++ l2)) s c k = m (cat l1) s c (fun s' c' => m (cat l2) s' c' k)).
  { intros X. induction l0 as [|r l0 IH]; intros l3 s0 c0 k; cbn [app cat m]; [reflexivity|].
    assert (E : forall r (f g : str -> caps -> option X) s c, (forall s c, f s c = g s c) -> m r s c f = m r s c g).
    { clear. induction r as [p| |a IHa b IHb|a IHa b IHb|a IHa|n a IHa|]; intros f g s c H; cbn [m].
      - destruct s; auto. destruct (in_cls p n); auto.
      - apply H.
      - apply IHa. intros; apply IHb; exact H.
      - rewrite (IHa f g), (IHb f g); auto.
      - change (star_fix a f (length s) s c = star_fix a g (length s) s c). generalize (length s) at 1 2 as n.
        intro n. revert s c. induction n as [|n IHn]; intros s c; cbn [star_fix]; [apply H|].
        rewrite H. erewrite IHa; [reflexivity|]. intros s' c'. cbn beta. destruct (length s' <? length s); auto.
      - apply IHa. intros; apply H.
      - destruct (at_end s); auto. }
    apply E. intros s1 c1. apply IH. }
  intros t1 c H1 H2 X k x Hk. rewrite G, <- app_assoc. apply H1. now apply H2.
Qed.
