From Verif Require Import Base BaseLemmas Observables_Model Constraints_Model Constraints_Spec Constraints_Proofs
  Likelihood_Model Likelihood_Spec Likelihood_Proofs Functions_Model Functions_Spec.

Lemma nth_set_nth {A} (l : list A) n a i :
  nth_error (set_nth n a l) i = if (i =? n) && (n <? length l) then Some a else nth_error l i.
Proof.
  revert n i; induction l as [|x l IH]; intros n i.
  - replace (set_nth n a []) with (@nil A) by (destruct n; reflexivity). cbn [length]. replace (n <? 0) with false by (symmetry; apply Nat.ltb_ge; lia). rewrite andb_false_r. reflexivity.
  - destruct n as [|n]; destruct i as [|i]; cbn [nth_error set_nth]; try reflexivity.
    rewrite IH. reflexivity.
Qed.
Lemma set_nth_length {A} (l : list A) n a : length (set_nth n a l) = length l.
Proof. revert n; induction l as [|x l IH]; intros [|n]; cbn; auto. Qed.

Section Aware.
  Context {V R : Type}.
  Notation prog := (prog V R).

  Lemma akeys_mono (p : prog) : forall os ak r fin, run_aware os ak p = (r, fin) -> incl ak fin.
  Proof.
    induction p as [r0|e|h k next IH|h k d next IH|h next IH|h k v next IH|h f next IH];
      intros os ak r fin; cbn [run_aware].
    - intro E; injection E as <- <-. apply incl_refl.
    - intro E; injection E as <- <-. apply incl_refl.
    - destruct (nth_error os h) as [o|]; [|intro E; injection E as <- <-; apply incl_refl].
      assert (Hi : incl ak (if tracked_obj o then ak ++ [k] else ak)).
      { destruct (tracked_obj o); [apply incl_appl|]; apply incl_refl. }
      destruct (od_get k (content o)) as [v|].
      + intro E. eapply incl_tran; [exact Hi|]. eapply IH, E.
      + intro E; injection E as <- <-. exact Hi.
    - destruct (nth_error os h) as [o|]; [|intro E; injection E as <- <-; apply incl_refl].
      intro E. eapply IH, E.
    - destruct (nth_error os h) as [[c d|c]|]; [| |intro E; injection E as <- <-; apply incl_refl]; intro E; eapply IH, E.
    - destruct (nth_error os h) as [[c d|c]|]; [| |intro E; injection E as <- <-; apply incl_refl]; intro E; eapply IH, E.
    - destruct (nth_error os h) as [o|]; [|intro E; injection E as <- <-; apply incl_refl].
      intro E. eapply IH, E.
  Qed.

  Variables (par1 par2 : od string V) (good : string -> Prop).
  Definition agree (c1 c2 : od string V) : Prop := forall k, good k -> od_get k c1 = od_get k c2.
  Definition rel (bs : list bool) (os : list (aobj V)) (ds : list (od string V)) : Prop :=
    length bs = length os /\ length ds = length os /\
    forall i o, nth_error os i = Some o -> exists b c1 c2,
      nth_error bs i = Some b /\ o = Aware c1 par1 /\ nth_error ds i = Some c2 /\ agree c1 c2 /\
      (b = false -> c1 = par1 /\ c2 = par2).

  Lemma nth_snoc {A} (l : list A) x i : nth_error (l ++ [x]) i =
    if i <? length l then nth_error l i else if i =? length l then Some x else None.
  Proof.
    destruct (Nat.ltb_spec i (length l)) as [Hi|Hi].
    - apply nth_error_app1, Hi.
    - rewrite nth_error_app2 by exact Hi. destruct (Nat.eqb_spec i (length l)) as [->|Hn].
      + rewrite Nat.sub_diag. reflexivity.
      + destruct (i - length l) as [|m] eqn:E; [lia|]. cbn. destruct m; reflexivity.
  Qed.

  Lemma aware_plain (p : prog) : agree par1 par2 ->
    forall bs os ds ak r fin, indexing_only bs p -> rel bs os ds ->
    run_aware os ak p = (r, fin) -> (forall k, In k fin -> good k) -> run_plain ds p = r.
  Proof.
    intro Hag. induction p as [r0|e|h k next IH|h k d next IH|h next IH|h k v next IH|h f next IH];
      intros bs os ds ak r fin Ht Hrel; cbn [run_aware run_plain].
    - intros E _; injection E as <- _. reflexivity.
    - intros E _; injection E as <- _. reflexivity.
    - destruct Hrel as (Hl1 & Hl2 & Hr).
      destruct (nth_error os h) as [o|] eqn:Eo.
      + destruct (Hr _ _ Eo) as (b & c1 & c2 & Hb & Ho & Hd & Hc & Hbf). subst o. rewrite Hd.
        cbn [tracked_obj content]. intros E Hfin.
        assert (Hk : good k).
        { destruct (od_get k c1) eqn:Eg.
          - apply Hfin. apply akeys_mono in E. apply E. apply in_or_app. right; left; reflexivity.
          - injection E as _ <-. apply Hfin. apply in_or_app. right; left; reflexivity. }
        rewrite <- (Hc k Hk). destruct (od_get k c1) as [v|].
        * eapply IH; [apply Ht| |exact E|exact Hfin]. split; [exact Hl1|split; [exact Hl2|exact Hr]].
        * injection E as <- _. reflexivity.
      + assert (nth_error ds h = None) as ->. { apply nth_error_None. apply nth_error_None in Eo. lia. }
        intros E _; injection E as <- _; reflexivity.
    - destruct Ht.
    - destruct Ht as [Hd Ht]. destruct Hrel as (Hl1 & Hl2 & Hr).
      destruct (nth_error os h) as [o|] eqn:Eo.
      + destruct (Hr _ _ Eo) as (b & c1 & c2 & Hb & Ho & Hds & Hc & Hbf). subst o. rewrite Hds.
        rewrite Hd in Hb. injection Hb as <-. destruct (Hbf eq_refl) as [-> ->].
        intros E Hfin. eapply IH; [exact Ht| |exact E|exact Hfin].
        split; [rewrite !app_length; cbn; lia|]. split; [rewrite !app_length; cbn; lia|].
        intros i o. rewrite !nth_snoc, Hl1, Hl2. destruct (i <? length os) eqn:Ei; [apply Hr|].
        destruct (i =? length os); [|discriminate]. intros [= <-].
        exists false, par1, par2. repeat split; auto.
      + assert (nth_error ds h = None) as ->. { apply nth_error_None. apply nth_error_None in Eo. lia. }
        intros E _; injection E as <- _; reflexivity.
    - destruct Hrel as (Hl1 & Hl2 & Hr). cbn [indexing_only] in Ht.
      destruct (nth_error os h) as [o|] eqn:Eo.
      + destruct (Hr _ _ Eo) as (b & c1 & c2 & Hb & Ho & Hds & Hc & Hbf). subst o. rewrite Hds.
        intros E Hfin. eapply IH; [exact Ht| |exact E|exact Hfin].
        assert (Hlt : h < length os) by (apply nth_error_Some; congruence).
        split; [rewrite !set_nth_length; lia|]. split; [rewrite !set_nth_length; lia|].
        intros i o. rewrite !nth_set_nth, Hl1, Hl2.
        destruct ((i =? h) && (h <? length os)) eqn:Ei; [|apply Hr].
        intros [= <-]. exists true, (od_set k v c1), (od_set k v c2). repeat split; auto; try discriminate.
        intros k' Hk'. rewrite !od_get_set. destruct (eqb k' k); [reflexivity|]. apply Hc, Hk'.
      + assert (nth_error ds h = None) as ->. { apply nth_error_None. apply nth_error_None in Eo. lia. }
        intros E _; injection E as <- _; reflexivity.
    - destruct Ht.
  Qed.
End Aware.

Lemma dependent_sound {V R} params (central : od string V) (p : prog V R) deps :
  indexing_only [false] p -> get_dependent_parameters_sm params central p = Ok deps ->
  (exists r, forall par, (forall k, In k deps \/ ~ In k params -> od_get k par = od_get k central) ->
    run_plain [par] p = Ok r) /\ (forall k, In k deps -> In k params).
Proof.
  unfold get_dependent_parameters_sm. intros Ht E.
  destruct (run_aware [Aware central central] [] p) as [r ak] eqn:Er.
  destruct r as [r|]; [|discriminate]. cbn [bind] in E. injection E as <-.
  split.
  - exists r. intros par Hpar. 
    eapply (aware_plain central par (fun k => In k ak)); [| exact Ht| |exact Er|auto].
    + intros k Hk. symmetry. apply Hpar. destruct (memb_spec k params) as [Hp|Hp]; [left|right; exact Hp].
      apply filter_In. split; [exact Hk|]. apply memb_In. exact Hp.
    + split; [reflexivity|split; [reflexivity|]]. intros [|i] o; [|destruct i; discriminate].
      cbn. intros [= <-]. exists false, central, par. repeat split; auto.
      intros k Hk. symmetry. apply Hpar. destruct (memb_spec k params) as [Hp|Hp]; [left|right; exact Hp].
      apply filter_In. split; [exact Hk|]. apply memb_In. exact Hp.
  - intros k Hk. apply filter_In in Hk as [_ Hk]. apply memb_In, Hk.
Qed.

(** ** error budget *)
Section Budget.
  Context {V D : Type} `{EqD : Eqb D}.

  Lemma make_par_random_spec (central : od string V) g pr : 
    (forall k, In k g -> od_get k pr <> None) ->
    exists par, make_par_random central g pr = Ok par /\ varied central g pr par.
  Proof.
    unfold make_par_random. revert central. induction g as [|k g IH]; intros central Hg; cbn [foldM].
    - exists central. split; [reflexivity|]. intro k. split; [intros []|reflexivity].
    - unfold get_item at 1. destruct (od_get k pr) as [v|] eqn:Ek; [|exfalso; apply (Hg k); [left; reflexivity|exact Ek]].
      cbn [bind]. destruct (IH (od_set k v central)) as (par & E & Hv); [intros; apply Hg; right; assumption|].
      exists par. split; [exact E|]. intro k'. destruct (Hv k') as [H1 H2]. split.
      + intros [->|Hin]; [|auto]. destruct (memb_spec k' g) as [Hi|Hi]; [auto|].
        rewrite (H2 Hi), od_get_set_eq. symmetry; exact Ek.
      + intro Hn. rewrite H2 by (intro; apply Hn; right; assumption). apply od_get_set_ne.
        intros ->. apply Hn; left; reflexivity.
  Qed.
  Lemma make_par_random_inv (central : od string V) g pr par :
    make_par_random central g pr = Ok par -> varied central g pr par.
  Proof.
    intro E. assert (Hg : forall k, In k g -> od_get k pr <> None).
    { revert central E. unfold make_par_random. induction g as [|k g IH]; intros central E; [intros ? []|].
      cbn [foldM] in E. unfold get_item at 1 in E. destruct (od_get k pr) as [v|] eqn:Ek; [|discriminate].
      cbn [bind] in E. intros k' [Hk'|Hk']; [subst k'; rewrite Ek; discriminate|]. eapply IH; eauto. }
    destruct (make_par_random_spec central g pr Hg) as (par' & E' & Hv). rewrite E in E'. injection E' as <-. exact Hv.
  Qed.

  (** grouping *)
  Definition ok_groups (l : od string D) (v : od D (list string)) : Prop :=
    NoDup (od_keys v) /\ Permutation (concat (od_vals v)) (od_keys l) /\
    (forall c g, In (c, g) v -> g <> [] /\ forall p, In p g -> In (p, c) l).
  Lemma od_set_mid (v : od D (list string)) c g x : NoDup (od_keys v) -> od_get c v = Some g ->
    Permutation (concat (od_vals (od_set c (g ++ [x]) v))) (concat (od_vals v) ++ [x]) /\
    forall c' g', In (c', g') (od_set c (g ++ [x]) v) -> (c' = c /\ g' = g ++ [x]) \/ In (c', g') v.
  Proof.
    induction v as [|[c0 g0] v IH]; [discriminate|]. cbn [od_get od_set].
    intros Hnd. inversion Hnd; subst.
    destruct (eqb_spec c c0) as [->|Hne].
    - intros [= ->]. split.
      + change (Permutation ((g ++ [x]) ++ concat (od_vals v)) ((g ++ concat (od_vals v)) ++ [x])).
        rewrite <- !app_assoc. apply Permutation_app_head. apply Permutation_app_comm.
      + intros c' g' [E|Hin]; [injection E as <- <-; left; auto|right; right; exact Hin].
    - intro Hg. destruct (IH H2 Hg) as [Hp Hin]. split.
      + change (Permutation (g0 ++ concat (od_vals (od_set c (g ++ [x]) v))) ((g0 ++ concat (od_vals v)) ++ [x])).
        rewrite <- app_assoc. apply Permutation_app_head, Hp.
      + intros c' g' [E|Hi]; [right; left; exact E|]. destruct (Hin _ _ Hi); [left; assumption|right; right; assumption].
  Qed.
  Lemma group_step_ok l v pc : ok_groups l v -> ok_groups (l ++ [pc]) (group_step v pc).
  Proof.
    destruct pc as [p c]. intros (Hnd & Hp & Hg). unfold group_step. cbn [fst snd].
    assert (Hkeys : od_keys (l ++ [(p, c)]) = od_keys l ++ [p]) by (unfold od_keys; rewrite map_app; reflexivity).
    split; [apply od_set_NoDup, Hnd|]. rewrite Hkeys.
    destruct (od_get c v) as [g|] eqn:Ec.
    - destruct (od_set_mid v c g p Hnd Ec) as [Hp' Hin]. split.
      + eapply Permutation_trans; [exact Hp'|]. apply Permutation_app_tail, Hp.
      + intros c' g' Hi. destruct (Hin _ _ Hi) as [[-> ->]|Hv].
        * split; [destruct g; discriminate|]. intros q Hq. apply in_app_or in Hq as [Hq|[<-|[]]].
          -- apply in_or_app; left. apply (Hg c g); [|exact Hq]. apply od_get_Some_In, Ec.
          -- apply in_or_app; right; left; reflexivity.
        * destruct (Hg _ _ Hv) as [H1 H2]. split; [exact H1|]. intros q Hq. apply in_or_app; left; auto.
    - rewrite od_set_new by (apply od_get_None, Ec). split.
      + unfold od_vals. rewrite map_app, concat_app. cbn. apply Permutation_app_tail. exact Hp.
      + intros c' g' Hi. apply in_app_or in Hi as [Hi|[Hi|[]]].
        * destruct (Hg _ _ Hi) as [H1 H2]. split; [exact H1|]. intros q Hq. apply in_or_app; left; auto.
        * injection Hi as <- <-. split; [discriminate|]. intros q [<-|[]]. apply in_or_app; right; left; reflexivity.
  Qed.
  Lemma group_ok (l : od string D) : ok_groups l (group l).
  Proof.
    induction l as [|pc l IH] using rev_ind.
    - split; [constructor|split; [apply Permutation_refl|intros ? ? []]].
    - unfold group. rewrite fold_left_app. cbn [fold_left]. apply group_step_ok, IH.
  Qed.

  Lemma par_constraint_spec (pars : od string (nat * D)) dep l : par_constraint pars dep = Ok l ->
    od_keys l = dep /\ forall p c, In (p, c) l -> exists i, od_get p pars = Some (i, c).
  Proof.
    unfold par_constraint. revert l; induction dep as [|p dep IH]; cbn [mapM]; intros l E.
    - injection E as <-. split; [reflexivity|intros ? ? []].
    - destruct (od_get p pars) as [[i c]|] eqn:Ep; [|discriminate]. cbn [bind] in E.
      destruct (mapM _ dep) as [l'|]; [|discriminate]. injection E as <-.
      destruct (IH _ eq_refl) as [H1 H2]. split; [cbn; f_equal; exact H1|].
      intros q d [Ei|Hi]; [injection Ei as <- <-; eauto|eauto].
  Qed.

  Variable predict : od string V -> result V.
  Variable relative_error : list V -> V -> V.

  Lemma budget_key_reported g : reported_as (budget_key g) g.
  Proof. destruct g as [|x [|y g]]; cbn; auto; split; auto; discriminate. Qed.
  Lemma budget_key_inj g g' : budget_key g = budget_key g' -> g = g'.
  Proof. destruct g as [|x [|y g]], g' as [|x' [|y' g']]; cbn; congruence. Qed.

  Definition group_value (central : od string V) (random : list (od string V)) (pred_central : V) (g : list string) (v : V) : Prop :=
    exists points preds, Forall2 (varied central g) random points /\
      Forall2 (fun par x => predict par = Ok x) points preds /\ v = relative_error preds pred_central.

  Lemma mapM_Forall2 {A B} (f : A -> result B) l l' : mapM f l = Ok l' <-> Forall2 (fun a b => f a = Ok b) l l'.
  Proof.
    revert l'; induction l as [|a l IH]; intro l'; cbn.
    - split; [intros [= <-]; constructor|inversion 1; reflexivity].
    - split.
      + destruct (f a) eqn:Ea; [|discriminate]. cbn. destruct (mapM f l); [|discriminate]. cbn. intros [= <-].
        constructor; [exact Ea|]. apply IH. reflexivity.
      + inversion 1 as [|? b ? l0 Hab Hl]; subst. rewrite Hab. cbn. apply IH in Hl. rewrite Hl. reflexivity.
  Qed.

  Lemma budget_fold central random pc groups : forall acc b, NoDup (map budget_key groups) ->
    (forall g, In g groups -> ~ In (budget_key g) (od_keys acc)) ->
    foldM (budget_step predict relative_error central random pc) groups acc = Ok b ->
    od_keys b = od_keys acc ++ map budget_key groups /\
    (forall k, In k (od_keys acc) -> od_get k b = od_get k acc) /\
    forall g, In g groups -> exists v, od_get (budget_key g) b = Some v /\ group_value central random pc g v.
  Proof.
    induction groups as [|g groups IH]; intros acc b Hnd Hacc; cbn [foldM map].
    - intros [= <-]. rewrite app_nil_r. split; [reflexivity|split; [reflexivity|intros ? []]].
    - inversion Hnd as [|? ? Hni Hnd']; subst.
      destruct (budget_step predict relative_error central random pc acc g) as [acc'|] eqn:Es; [|discriminate].
      cbn [bind]. unfold budget_step in Es.
      destruct (mapM (make_par_random central g) random) as [pts|] eqn:Ep; [|discriminate]. cbn [bind] in Es.
      destruct (mapM predict pts) as [preds|] eqn:Eq; [|discriminate]. cbn [bind] in Es. injection Es as <-.
      intro Ef. assert (Hgk : ~ In (budget_key g) (od_keys acc)) by (apply Hacc; left; reflexivity).
      assert (Hset : od_keys (od_set (budget_key g) (relative_error preds pc) acc) = od_keys acc ++ [budget_key g]).
      { rewrite od_set_new by exact Hgk. unfold od_keys. rewrite map_app. reflexivity. }
      apply IH in Ef; [|exact Hnd'|].
      + destruct Ef as (E1 & E2 & E3). split; [rewrite E1, Hset, <- app_assoc; reflexivity|]. split.
        * intros k Hk. rewrite E2 by (rewrite Hset; apply in_or_app; left; exact Hk).
          apply od_get_set_ne. intros ->. contradiction.
        * intros g' [<-|Hg']; [|auto]. exists (relative_error preds pc). split.
          -- rewrite E2 by (rewrite Hset; apply in_or_app; right; left; reflexivity). apply od_get_set_eq.
          -- exists pts, preds. split; [|split; [apply mapM_Forall2, Eq|reflexivity]].
             apply mapM_Forall2 in Ep. clear -Ep. induction Ep; constructor; auto.
             eapply make_par_random_inv; eassumption.
      + intros g' Hg' Hin. rewrite Hset in Hin. apply in_app_or in Hin as [Hin|[Hin|[]]].
        * eapply Hacc; [right; exact Hg'|exact Hin].
        * apply Hni. rewrite Hin. apply in_map, Hg'.
  Qed.

  Lemma concat_NoDup_groups (gs : list (list string)) : NoDup (concat gs) -> (forall g, In g gs -> g <> []) -> NoDup gs.
  Proof.
    induction gs as [|g gs IH]; cbn; intros Hnd Hne; [constructor|].
    assert (Happ : forall x, In x g -> ~ In x (concat gs)).
    { intros x Hx Hc. clear -Hnd Hx Hc. induction g as [|y g IH]; [destruct Hx|]. cbn in Hnd. inversion Hnd; subst.
      destruct Hx as [->|Hx]; [|auto]. apply H1. apply in_or_app; right; exact Hc. }
    constructor.
    - intro Hin. destruct g as [|x g]; [apply (Hne []); [left; reflexivity|reflexivity]|].
      apply (Happ x); [left; reflexivity|]. apply in_concat. exists (x :: g). split; [exact Hin|left; reflexivity].
    - apply IH; [|intros; apply Hne; right; assumption].
      clear -Hnd. induction g as [|y g IH]; [exact Hnd|]. cbn in Hnd. inversion Hnd; subst; auto.
  Qed.

  Lemma error_budget_spec (pars : od string (nat * D)) central random dep b :
    NoDup dep -> sm_error_budget predict relative_error pars central random dep = Ok b ->
    exists groups, Permutation (concat groups) dep /\ (forall g, In g groups -> g <> []) /\
      Forall2 reported_as (od_keys b) groups /\
      (forall g p q, In g groups -> In p g -> In q dep ->
         (In q g <-> exists i j c, od_get p pars = Some (i, c) /\ od_get q pars = Some (j, c))) /\
      (exists pc, predict central = Ok pc /\
       Forall2 (fun v g => group_value central random pc g v) (od_vals b) groups).
  Proof.
    intros Hnd. unfold sm_error_budget. destruct (predict central) as [pc|] eqn:Epc; [|discriminate]. cbn [bind].
    destruct (par_constraint pars dep) as [l|] eqn:El; [|discriminate]. cbn [bind].
    destruct (par_constraint_spec _ _ _ El) as [Hk Hl]. destruct (group_ok l) as (Hgn & Hperm & Hg).
    set (groups := od_vals (group l)) in *. rewrite Hk in Hperm. intro Ef.
    assert (Hne : forall g, In g groups -> g <> []).
    { intros g Hi. unfold groups, od_vals in Hi. apply in_map_iff in Hi as ([c g'] & E & Hi). cbn in E; subst.
      apply (Hg _ _ Hi). }
    assert (Hcnd : NoDup (concat groups)) by (eapply Permutation_NoDup; [apply Permutation_sym, Hperm|exact Hnd]).
    assert (Hgnd : NoDup groups) by (apply concat_NoDup_groups; assumption).
    apply budget_fold in Ef; [|apply FinFun.Injective_map_NoDup; [intros ? ?; apply budget_key_inj|exact Hgnd]|intros ? _ []].
    destruct Ef as (E1 & _ & E3). cbn in E1.
    assert (Hlnd : NoDup (od_keys l)) by (rewrite Hk; exact Hnd).
    exists groups. split; [exact Hperm|]. split; [exact Hne|]. split; [|split].
    - rewrite E1. clear. induction groups; constructor; [apply budget_key_reported|assumption].
    - intros g p q Hgi Hp Hq. unfold groups, od_vals in Hgi. apply in_map_iff in Hgi as ([c g'] & E & Hi). cbn in E; subst g'.
      destruct (Hg _ _ Hi) as [_ Hgc]. pose proof (Hgc _ Hp) as Hpc. destruct (Hl _ _ Hpc) as [i Ei]. split.
      + intro Hqg. destruct (Hl _ _ (Hgc _ Hqg)) as [j Ej]. exists i, j, c. auto.
      + intros (i' & j & c' & Ep & Eq). rewrite Ei in Ep. injection Ep as <- <-.
        assert (Hqc : In q (concat groups)) by (eapply Permutation_in; [apply Permutation_sym, Hperm|exact Hq]).
        apply in_concat in Hqc as (g' & Hg' & Hqg'). unfold groups, od_vals in Hg'.
        apply in_map_iff in Hg' as ([c' g''] & E & Hi'). cbn in E; subst g''.
        destruct (Hg _ _ Hi') as [_ Hgc']. destruct (Hl _ _ (Hgc' _ Hqg')) as [j' Ej'].
        rewrite Eq in Ej'. injection Ej' as _ <-.
        assert (Some g = Some g') as Egg.
        { rewrite <- (od_In_get _ _ _ Hgn Hi), <- (od_In_get _ _ _ Hgn Hi'). reflexivity. }
        injection Egg as <-. exact Hqg'.
    - exists pc. split; [reflexivity|].
      assert (Hbn : NoDup (od_keys b)).
      { rewrite E1. apply FinFun.Injective_map_NoDup; [intros ? ?; apply budget_key_inj|exact Hgnd]. }
      assert (Hall : forall g, In g groups -> exists v, od_get (budget_key g) b = Some v /\ group_value central random pc g v) by exact E3.
      clear -E1 Hbn Hall. clearbody groups. revert b E1 Hbn Hall. induction groups as [|g gs IH]; intros [|[k v] b] E1 Hbn Hall; try discriminate; [constructor|].
      cbn in E1. injection E1 as -> E1. cbn in Hbn. inversion Hbn; subst. constructor.
      + destruct (Hall g) as (v' & E & Hv); [left; reflexivity|]. cbn [od_get] in E. rewrite eqb_refl in E. injection E as ->. exact Hv.
      + apply IH; [exact E1|assumption|]. intros g' Hg'. destruct (Hall g') as (v' & E & Hv); [right; exact Hg'|].
        exists v'. split; [|exact Hv]. cbn [od_get] in E. destruct (eqb_spec (budget_key g') (budget_key g)) as [Ek|]; [|exact E].
        exfalso. apply H1. rewrite <- Ek. fold (od_keys b) in *. rewrite E1. apply in_map, Hg'.
  Qed.

  Lemma foldM_total {A B} (f : A -> B -> result A) l a : (forall a b, In b l -> exists a', f a b = Ok a') -> exists a', foldM f l a = Ok a'.
  Proof.
    revert a; induction l as [|b l IH]; intros a Hf; cbn; [eauto|].
    destruct (Hf a b) as [a' E]; [left; reflexivity|]. rewrite E. cbn. apply IH. intros; apply Hf; right; assumption.
  Qed.
  Lemma error_budget_total (pars : od string (nat * D)) central random dep :
    (forall par, exists v, predict par = Ok v) ->
    (forall p pr, In p dep -> In pr random -> od_get p pr <> None) ->
    (forall p, In p dep -> od_get p pars <> None) ->
    exists b, sm_error_budget predict relative_error pars central random dep = Ok b.
  Proof.
    intros Hp Hr Hd. unfold sm_error_budget. destruct (Hp central) as [pc Epc]. rewrite Epc. cbn [bind].
    assert (exists l, par_constraint pars dep = Ok l) as [l El].
    { unfold par_constraint. apply mapM_total. intros p Hin. specialize (Hd p Hin). destruct (od_get p pars) as [[i c]|]; [eauto|congruence]. }
    rewrite El. cbn [bind]. destruct (par_constraint_spec _ _ _ El) as [Hk _]. destruct (group_ok l) as (_ & Hperm & _).
    rewrite Hk in Hperm. apply foldM_total. intros acc g Hg. unfold budget_step.
    assert (exists pts, mapM (make_par_random central g) random = Ok pts) as [pts Ep].
    { apply mapM_total. intros pr Hpr. destruct (make_par_random_spec central g pr) as (par & E & _); [|eauto].
      intros k Hkg. apply Hr; [|exact Hpr]. eapply Permutation_in; [exact Hperm|]. apply in_concat. eauto. }
    rewrite Ep. cbn [bind]. assert (exists vs, mapM predict pts = Ok vs) as [vs Ev] by (apply mapM_total; intros; apply Hp).
    rewrite Ev. cbn [bind]. eauto.
  Qed.
  Lemma error_budget_keyerror (pars : od string (nat * D)) central random dep p pc :
    predict central = Ok pc -> In p dep -> od_get p pars = None ->
    sm_error_budget predict relative_error pars central random dep = Err KeyError.
  Proof.
    intros Epc Hin Hn. unfold sm_error_budget. rewrite Epc. cbn [bind].
    assert (par_constraint pars dep = Err KeyError) as ->; [|reflexivity].
    unfold par_constraint. induction dep as [|q dep IH]; [destruct Hin|]. cbn [mapM].
    destruct (od_get q pars) as [[i c]|] eqn:Eq; [|reflexivity]. cbn [bind].
    destruct Hin as [->|Hin]; [congruence|]. rewrite IH by exact Hin. reflexivity.
  Qed.
End Budget.
