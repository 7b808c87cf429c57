From Verif Require Import Base BaseLemmas Observables_Model Observables_Proofs Constraints_Model Constraints_Spec Constraints_Proofs
  Likelihood_Model Likelihood_Spec Likelihood_Proofs Functions_Model Functions_Spec Functions_Proofs.

(** ** sample points of sm_covariance *)
Section Cov.
  Context {V : Type}.
  Lemma sample_spec i (d : od string (list V)) : (forall k l, In (k, l) d -> i < length l) ->
    exists s, sample i d = Ok s /\ od_keys s = od_keys d /\
      forall k, od_get k s = match od_get k d with Some l => nth_error l i | None => None end.
  Proof.
    unfold sample. induction d as [|[k0 l0] d IH]; intro Hl; cbn [mapM].
    - exists []. repeat split.
    - destruct IH as (s & Es & Hk & Hg); [intros; eapply Hl; right; eassumption|].
      assert (Hi : i < length l0) by (eapply Hl; left; reflexivity). cbn [fst snd].
      destruct (nth_error l0 i) as [v|] eqn:Ev; [|apply nth_error_None in Ev; lia]. cbn [bind]. rewrite Es. cbn [bind].
      eexists; split; [reflexivity|]. split; [cbn; f_equal; exact Hk|].
      intro k. cbn [od_get]. destruct (eqb k k0); [symmetry; exact Ev|apply Hg].
  Qed.
  Lemma samples_spec N (d : od string (list V)) : (forall k l, In (k, l) d -> length l = N) ->
    exists pts, samples N d = Ok pts /\ length pts = N /\
      forall i s, nth_error pts i = Some s -> od_keys s = od_keys d /\
       forall k, od_get k s = match od_get k d with Some l => nth_error l i | None => None end.
  Proof.
    intro Hl. unfold samples.
    assert (Hgen : forall n a, a + n <= N -> exists pts, mapM (fun i => sample i d) (seq a n) = Ok pts /\ length pts = n /\
      forall i s, nth_error pts i = Some s -> od_keys s = od_keys d /\
       forall k, od_get k s = match od_get k d with Some l => nth_error l (a + i) | None => None end).
    { induction n as [|n IH]; intros a Ha; cbn [seq mapM].
      - exists []. repeat split; destruct i; discriminate.
      - destruct (sample_spec a d) as (s & Es & Hk & Hg); [intros k l Hin; rewrite (Hl _ _ Hin); lia|].
        rewrite Es. cbn [bind]. destruct (IH (S a)) as (pts & Ep & Hn & Hp); [lia|]. rewrite Ep. cbn [bind].
        eexists; split; [reflexivity|]. split; [cbn; f_equal; exact Hn|].
        intros [|i] s'; cbn [nth_error].
        + intro E; injection E as <-. rewrite Nat.add_0_r. split; assumption.
        + intro E. destruct (Hp _ _ E) as [H1 H2]. split; [exact H1|]. intro k. rewrite H2. replace (S a + i) with (a + S i) by lia. reflexivity. }
    destruct (Hgen N 0) as (pts & E & Hn & Hp); [lia|]. exists pts. auto.
  Qed.

  Lemma od_get_filter (f : string -> bool) {X} (d : od string X) k :
    od_get k (filter (fun kv => f (fst kv)) d) = if f k then od_get k d else None.
  Proof.
    induction d as [|[k0 v0] d IH]; cbn; [destruct (f k); reflexivity|].
    destruct (f k0) eqn:E; cbn [od_get]; destruct (eqb_spec k k0) as [->|Hne]; auto.
    - rewrite E. reflexivity.
    - rewrite IH, E. reflexivity.
  Qed.
  Lemma od_get_map_vals {X Y} (f : X -> Y) (d : od string X) k :
    od_get k (map (fun kv => (fst kv, f (snd kv))) d) = option_map f (od_get k d).
  Proof. induction d as [|[k0 v0] d IH]; cbn; [reflexivity|]. destruct (eqb k k0); auto. Qed.
  Lemma od_get_update {X} (d1 d2 : od string X) k : NoDup (od_keys d2) ->
    od_get k (od_update d1 d2) = match od_get k d2 with Some v => Some v | None => od_get k d1 end.
  Proof.
    unfold od_update. revert d1; induction d2 as [|[k0 v0] d2 IH]; intros d1 Hnd; cbn; [reflexivity|].
    inversion Hnd; subst. rewrite IH by assumption. destruct (eqb_spec k k0) as [->|Hne].
    - assert (od_get k0 d2 = None) as -> by (apply od_get_None; assumption). apply od_get_set_eq.
    - rewrite od_get_set_ne by exact Hne. reflexivity.
  Qed.
  Lemma od_update_In {X} (d1 d2 : od string X) k v : In (k, v) (od_update d1 d2) -> In (k, v) d1 \/ In (k, v) d2.
  Proof.
    unfold od_update. revert d1; induction d2 as [|[k0 v0] d2 IH]; intros d1; cbn; [auto|].
    intro Hi. destruct (IH _ Hi) as [Hi'|Hi']; [|auto].
    clear -Hi'. induction d1 as [|[k1 v1] d1 IH]; cbn in Hi'; [destruct Hi' as [E|[]]; auto|].
    destruct (eqb_spec k0 k1) as [->|Hne]; cbn in *.
    - destruct Hi' as [E|E]; auto.
    - destruct Hi' as [E|E]; [auto|]. destruct (IH E) as [?|[?|?]]; auto.
  Qed.

  Lemma cov_points_list N l (random : od string (list V)) (central : od string V) :
    NoDup (od_keys random) -> (forall k v, In (k, v) random -> length v = N) ->
    exists pts, cov_points N (PVlist l) random central = Ok pts /\ length pts = N /\
      forall i s, nth_error pts i = Some s -> forall k,
        (In k l -> od_get k s = match od_get k random with Some v => nth_error v i | None => None end) /\
        (~ In k l -> od_get k s = od_get k central).
  Proof.
    intros Hnd Hlen. unfold cov_points, par_random_some. cbn [pv_mem].
    set (par1 := map _ _). set (par2 := filter _ random).
    destruct (samples_spec N (od_update par1 par2)) as (pts & E & Hn & Hp).
    { intros k v Hin. apply od_update_In in Hin as [Hin|Hin].
      - unfold par1 in Hin. apply in_map_iff in Hin as ([k' v'] & E & _). injection E as <- <-. apply repeat_length.
      - apply filter_In in Hin as [Hin _]. apply (Hlen _ _ Hin). }
    exists pts. split; [exact E|]. split; [exact Hn|]. intros i s Hs k. destruct (Hp _ _ Hs) as [_ Hg]. rewrite Hg.
    assert (Hi : i < N) by (rewrite <- Hn; apply nth_error_Some; congruence).
    rewrite od_get_update.
    2:{ unfold par2, od_keys. clear -Hnd. induction random as [|[k v] r IH]; cbn; [constructor|]. inversion Hnd; subst.
        destruct (memb k l); cbn; auto. constructor; auto. intro Hin. apply H1. apply in_map_iff in Hin as ([k' v'] & E & Hin).
        apply filter_In in Hin as [Hin _]. cbn in E; subst. unfold od_keys. apply (in_map fst _ _ Hin). }
    unfold par2. rewrite (od_get_filter (fun k => memb k l) random k).
    unfold par1. rewrite (od_get_map_vals (fun v => repeat v N)).
    rewrite (od_get_filter (fun k => negb (memb k l)) central k).
    destruct (memb_spec k l) as [Hk|Hk]; cbn [negb]; split; try contradiction; intros _.
    - destruct (od_get k random); reflexivity.
    - destruct (od_get k central) as [v|]; [|reflexivity]. cbn [option_map].
      clear -Hi. revert i Hi. induction N as [|N IH]; intros i Hi; [lia|]. destruct i as [|i]; [reflexivity|]. cbn. apply IH. lia.
  Qed.
  Lemma cov_points_all N (random : od string (list V)) (central : od string V) :
    (forall k v, In (k, v) random -> length v = N) ->
    exists pts, cov_points N (PVstr "all") random central = Ok pts /\ length pts = N /\
      forall i s, nth_error pts i = Some s -> forall k,
        od_get k s = match od_get k random with Some v => nth_error v i | None => None end.
  Proof.
    intro Hlen. destruct (samples_spec N random Hlen) as (pts & E & Hn & Hp).
    exists pts. split; [exact E|]. split; [exact Hn|]. intros i s Hs k. apply (Hp _ _ Hs).
  Qed.
End Cov.

(** ** pools *)
Lemma pool_run_ok {A B} (f : A -> result B) l sched : forall slots, (forall i, In i sched -> i < length l) -> length slots = length l ->
  match pool_run f l sched slots with
  | Ok slots' => length slots' = length l /\
      (forall i a, nth_error l i = Some a -> In i sched -> exists b, f a = Ok b /\ nth_error slots' i = Some (Some b)) /\
      (forall i, ~ In i sched -> nth_error slots' i = nth_error slots i)
  | Err e => exists i a, In i sched /\ nth_error l i = Some a /\ f a = Err e
  end.
Proof.
  induction sched as [|i sched IH]; intros slots Hs Hl; cbn [pool_run].
  - repeat split; auto. intros i a _ [].
  - destruct (nth_error l i) as [a|] eqn:Ea; [|apply nth_error_None in Ea; specialize (Hs i (or_introl eq_refl)); lia].
    destruct (f a) as [b|e] eqn:Ef; cbn [bind]; [|exists i, a; repeat split; auto; left; reflexivity].
    specialize (IH (set_nth i (Some b) slots)). 
    assert (Hs' : forall j, In j sched -> j < length l) by (intros; apply Hs; right; assumption).
    specialize (IH Hs'). rewrite set_nth_length in IH. specialize (IH Hl).
    destruct (pool_run f l sched (set_nth i (Some b) slots)) as [slots'|e].
    + destruct IH as (H1 & H2 & H3). split; [exact H1|]. split.
      * intros j a' Ha' Hj. destruct (in_dec Nat.eq_dec j sched) as [Hjs|Hjs]; [eapply H2; eassumption|].
        destruct Hj as [E|Hj]; [subst j|contradiction]. rewrite Ea in Ha'. injection Ha' as <-. exists b. split; [exact Ef|].
        rewrite H3 by exact Hjs. rewrite nth_set_nth, Nat.eqb_refl.
        assert (i < length slots) as Hlt by (rewrite Hl; apply Hs; left; reflexivity).
        apply Nat.ltb_lt in Hlt. rewrite Hlt. reflexivity.
      * intros j Hj. rewrite H3 by (intro; apply Hj; right; assumption). rewrite nth_set_nth.
        destruct (Nat.eqb_spec j i) as [->|]; [exfalso; apply Hj; left; reflexivity|reflexivity].
    + destruct IH as (j & a' & Hj & Ha' & Hf). exists j, a'. repeat split; auto. right; exact Hj.
Qed.

Lemma pool_map_spec {A B} (f : A -> result B) l sched : Permutation sched (seq 0 (length l)) ->
  forall bs, pool_map f l sched = Ok bs <-> mapM f l = Ok bs.
Proof.
  intros Hp bs. unfold pool_map.
  assert (Hin : forall i, In i sched <-> i < length l).
  { intro i. rewrite <- (in_seq (length l) 0 i) || idtac. split; intro Hi.
    - apply (Permutation_in _ Hp), in_seq in Hi. lia.
    - apply (Permutation_in _ (Permutation_sym Hp)), in_seq. lia. }
  pose proof (pool_run_ok f l sched (repeat None (length l)) (fun i => proj1 (Hin i)) (repeat_length _ _)) as Hr.
  destruct (pool_run f l sched (repeat None (length l))) as [slots|e]; cbn [bind].
  - destruct Hr as (Hl & Hall & _).
    assert (exists bs0, mapM f l = Ok bs0 /\ slots = map Some bs0) as (bs0 & E0 & Es).
    { clear -Hall Hl Hin. assert (Hall' : forall i a, nth_error l i = Some a -> exists b, f a = Ok b /\ nth_error slots i = Some (Some b)).
      { intros i a Ha. apply (Hall i a Ha). apply Hin. apply nth_error_Some. congruence. }
      clear Hall Hin. revert slots Hl Hall'. induction l as [|a l IH]; intros [|s slots] Hl Hall; try discriminate.
      - exists []. split; reflexivity.
      - destruct (Hall 0 a eq_refl) as (b & Eb & E). cbn in E. injection E as ->. cbn [mapM]. rewrite Eb. cbn [bind].
        destruct (IH slots) as (bs0 & E0 & ->); [cbn in Hl; lia|intros i a' Ha'; apply (Hall (S i) a' Ha')|].
        rewrite E0. cbn [bind]. exists (b :: bs0). split; reflexivity. }
    rewrite E0, Es. assert (mapM (fun o => match o with Some b => Ok b | None => Err ValueError end) (map Some bs0) = Ok bs0) as ->; [|reflexivity].
    clear. induction bs0; cbn; [reflexivity|]. rewrite IHbs0. reflexivity.
  - destruct Hr as (i & a & _ & Ha & Hf). split; [discriminate|]. intro E. exfalso.
    apply mapM_Forall2 in E. clear -Ha Hf E. revert i Ha. induction E as [|x y l bs Hxy Hl IH]; intros [|i] Ha; cbn in Ha; try discriminate.
    + injection Ha as ->. congruence.
    + eapply IH, Ha.
Qed.

Section CovRun.
  Context {V A : Type}.
  Variable registry : od string (option (list string)).
  Variable predict : string -> od string V -> od string (pyval A) -> result V.
  Lemma prediction_sm_documented par (o : obs_in A) : documented_form o -> snd (get_prediction_sm registry predict par o) = o.
  Proof.
    unfold get_prediction_sm. intro Hd. destruct (argument_format registry o FDict) as [[s|l|l|d|]|e]; try reflexivity.
    destruct (od_get "name"%string d) as [[n|]|]; try reflexivity. destruct o; try reflexivity. destruct Hd.
  Qed.
  Lemma prediction_array_documented par obs_list : Forall documented_form obs_list ->
    snd (prediction_array registry predict par obs_list) = obs_list.
  Proof.
    induction 1 as [|o os Ho Hos IH]; [reflexivity|]. cbn [prediction_array].
    pose proof (prediction_sm_documented par o Ho) as Hs. destruct (get_prediction_sm registry predict par o) as [r o'].
    cbn in Hs. subst o'. destruct r as [v|]; [|reflexivity].
    destruct (prediction_array registry predict par os) as [rs os']. cbn in *. subst. reflexivity.
  Qed.
  Lemma serial_documented points obs_list : Forall documented_form obs_list ->
    serial_predictions registry predict points obs_list =
    mapM (fun par => fst (prediction_array registry predict par obs_list)) points.
  Proof.
    intro Hd. induction points as [|par points IH]; [reflexivity|]. cbn [serial_predictions mapM].
    pose proof (prediction_array_documented par obs_list Hd) as Hs.
    destruct (prediction_array registry predict par obs_list) as [r os']. cbn in Hs |- *. subst os'.
    destruct r as [v|]; [|reflexivity]. cbn [bind]. rewrite IH. reflexivity.
  Qed.
  Lemma prediction_sm_means par o nk : means registry o nk ->
    fst (get_prediction_sm registry predict par o) = predict (fst nk) par (snd nk).
  Proof.
    destruct nk as [n kw]. cbn [fst snd]. unfold get_prediction_sm.
    intros [(-> & Hr & E)|(args & vals & -> & Hr & Hlen & Hnd & Hni & E)]; cbn in E; subst kw.
    - cbn in Hr. cbn [argument_format lookup_args fst]. rewrite Hr. reflexivity.
    - cbn in Hr. cbn [argument_format lookup_args fst]. rewrite Hr. cbn [bind]. rewrite Hlen, Nat.eqb_refl. cbn [finish].
      unfold dict_of_args. rewrite od_update_new.
      + change (od_get "name"%string ([("name"%string, VStr n)] ++ combine args vals)) with (Some (@VStr A n)).
        reflexivity.
      + unfold od_keys. replace (map fst (combine args vals)) with args; [exact Hnd|].
        clear -Hlen. revert vals Hlen; induction args; intros [|v vals] Hlen; try discriminate; [reflexivity|]. cbn. f_equal. apply IHargs. cbn in Hlen; lia.
      + intros k Hk [<-|[]]. unfold od_keys in Hk. apply Hni. apply in_map_iff in Hk as ([k' v] & E & Hin). cbn in E; subst.
        eapply in_combine_l; exact Hin.
  Qed.
  Lemma prediction_array_means par obs_list nks : Forall2 (means registry) obs_list nks ->
    fst (prediction_array registry predict par obs_list) = mapM (fun nk => predict (fst nk) par (snd nk)) nks.
  Proof.
    induction 1 as [|o nk os nks Ho Hos IH]; [reflexivity|]. cbn [prediction_array mapM].
    pose proof (prediction_sm_means par o nk Ho) as Hs. destruct (get_prediction_sm registry predict par o) as [r o'].
    cbn in Hs. subst r. destruct (predict (fst nk) par (snd nk)) as [v|]; [|reflexivity]. cbn [bind].
    destruct (prediction_array registry predict par os) as [rs os']. cbn in *. subst. reflexivity.
  Qed.
  Lemma means_documented o nk : means registry (A:=A) o nk -> documented_form o.
  Proof. intros [(-> & _)|(? & ? & -> & _)]; exact I. Qed.
  Lemma covariance_rows points obs_list nks : Forall2 (means registry) obs_list nks ->
    serial_predictions registry predict points obs_list =
    mapM (fun par => mapM (fun nk => predict (fst nk) par (snd nk)) nks) points.
  Proof.
    intro Hm. rewrite serial_documented.
    - apply mapM_ext_in. intros par _. apply prediction_array_means, Hm.
    - clear -Hm. induction Hm; constructor; auto. eapply means_documented; eassumption.
  Qed.
End CovRun.

(** ** combine_measurements *)
Section Combine.
  Context {A D : Type} `{EqA : Eqb A} `{EqD : Eqb D}.
  Notation obs := (string + list (pyval A))%type.
  Variable arguments : string -> result (option (list string)).
  Variable dim : D -> option nat.
  Variable reduce_dimension : D -> list nat -> D.
  Variable combine_distributions : list D -> result D.

  Definition useb (o : obs) (include : option (list string)) (nh : string * list (cop obs D)) : bool :=
    negb (is_pseudo (fst nh)) && match include with Some inc => memb (fst nh) inc | None => true end &&
    match current (rev (snd nh)) o with Some _ => true | None => false end.
  Lemma useb_spec o include nh : useb o include nh = true <-> usable o include nh.
  Proof.
    unfold useb, usable. rewrite <- is_pseudo_spec, !andb_true_iff, negb_true_iff. 
    assert (Hi : match include with Some inc => memb (fst nh) inc | None => true end = true <-> forall inc, include = Some inc -> In (fst nh) inc).
    { destruct include as [inc|]; [|split; [discriminate|reflexivity]]. rewrite memb_In. split; [congruence|auto]. }
    rewrite Hi. split.
    - intros [[H1 H2] H3]. repeat split; [congruence|exact H2|]. destruct (current (rev (snd nh)) o); congruence.
    - intros (H1 & H2 & H3). repeat split; [destruct (is_pseudo (fst nh)); congruence|exact H2|].
      destruct (current (rev (snd nh)) o); congruence.
  Qed.

  Lemma combine_one_spec o include nh :
    match combine_one dim reduce_dimension o include (fst nh, after (P:=obs) (D:=D) [] (snd nh)) with
    | [] => ~ usable o include nh
    | [(d, multi)] => usable o include nh /\ exists i c, current (rev (snd nh)) o = Some (i, c) /\
        one_dimensional dim reduce_dimension c i d /\ (multi = true <-> dim c <> None)
    | _ => False
    end.
  Proof.
    unfold combine_one. cbn [fst snd]. destruct (is_pseudo (fst nh)) eqn:Ep.
    { intros [Hn _]. apply Hn. apply is_pseudo_spec, Ep. }
    assert (Hnp : ~ pseudo_name (fst nh)) by (rewrite <- is_pseudo_spec; congruence).
    destruct (match include with Some inc => negb (memb (fst nh) inc) | None => false end) eqn:Ei.
    { destruct include as [inc|]; [|discriminate]. apply negb_true_iff, memb_notIn in Ei. intros (_ & Hi & _). apply Ei, Hi. reflexivity. }
    assert (Hinc : forall inc, include = Some inc -> In (fst nh) inc).
    { intros inc ->. apply negb_false_iff, memb_In in Ei. exact Ei. }
    rewrite after_get. destruct (current (rev (snd nh)) o) as [[i c]|] eqn:Ec; [|intros (_ & _ & Hc); congruence].
    unfold one_dimensional. destruct (dim c) as [n|] eqn:Ed.
    - split; [repeat split; auto; congruence|]. exists i, c. split; [reflexivity|]. rewrite Ed. split.
      + eexists. split; [reflexivity|]. split; [apply NoDup_filter, seq_NoDup|].
        intro j. rewrite filter_In, in_seq, negb_true_iff, Nat.eqb_neq. lia.
      + split; [discriminate|reflexivity].
    - split; [repeat split; auto; congruence|]. exists i, c. split; [reflexivity|]. rewrite Ed. split; [reflexivity|].
      split; [discriminate|congruence].
  Qed.

  Definition part_of (o : obs) (nh : string * list (cop obs D)) (dm : D * bool) : Prop :=
    exists i c, current (rev (snd nh)) o = Some (i, c) /\ one_dimensional dim reduce_dimension c i (fst dm) /\
      (snd dm = true <-> dim c <> None).
  Lemma flat_combine o include reg :
    Forall2 (part_of o) (filter (useb o include) reg) (flat_map (combine_one dim reduce_dimension o include) (built reg)).
  Proof.
    unfold built. induction reg as [|nh reg IH]; [constructor|]. cbn [filter map flat_map].
    pose proof (combine_one_spec o include nh) as Hc. destruct (combine_one dim reduce_dimension o include _) as [|[d m] [|? ?]].
    - destruct (useb o include nh) eqn:Eu; [apply useb_spec in Eu; contradiction|]. exact IH.
    - destruct Hc as [Hu Hp]. apply useb_spec in Hu. rewrite Hu. cbn [app]. constructor; [exact Hp|exact IH].
    - destruct Hc.
  Qed.

  Lemma combine_spec o include reg :
    exists ds, Forall2 (fun nh d => exists i c, current (rev (snd nh)) o = Some (i, c) /\ one_dimensional dim reduce_dimension c i d)
                 (filter (useb o include) reg) ds /\
      combine_measurements arguments dim reduce_dimension combine_distributions (built reg) o include [] =
        let warn := 1 <? length (filter (fun nh => match current (rev (snd nh)) o with
                                           | Some (_, c) => match dim c with Some _ => true | None => false end
                                           | None => false end) (filter (useb o include) reg)) in
        match ds with
        | [] => Err ValueError
        | [d] => Ok (d, warn)
        | _ => do d <- combine_distributions ds; Ok (d, warn)
        end.
  Proof.
    pose proof (flat_combine o include reg) as Hf.
    unfold combine_measurements. cbn [combine_obs bind]. set (l := flat_map _ _) in *. exists (map fst l).
    assert (Hw : length (filter snd l) = length (filter (fun nh => match current (rev (snd nh)) o with
                                           | Some (_, c) => match dim c with Some _ => true | None => false end
                                           | None => false end) (filter (useb o include) reg))).
    { clear -Hf. clearbody l. induction Hf as [|nh dm us l (i & c & Ec & _ & Hm) Hf IH]; [reflexivity|]. cbn [filter]. rewrite Ec.
      destruct (snd dm) eqn:Es.
      - destruct (dim c); [cbn; f_equal; exact IH|]. exfalso. apply Hm; reflexivity.
      - destruct (dim c); [|exact IH]. assert (false = true) by (apply Hm; discriminate). discriminate. }
    split.
    - clear -Hf. clearbody l. induction Hf as [|nh dm us l (i & c & Ec & Ho & Hm) Hf IH]; constructor; eauto.
    - rewrite Hw. destruct (map fst l) as [|d [|d' ds]]; reflexivity.
  Qed.

  Lemma combine_kwargs (reg : list (string * cset obs D)) name include (kwargs : od string (pyval A)) args vals :
    kwargs <> [] -> arguments name = Ok (Some args) -> 
    Forall2 (fun a v => od_get a kwargs = Some v) args vals ->
    combine_measurements arguments dim reduce_dimension combine_distributions reg (inl name) include kwargs =
    combine_measurements arguments dim reduce_dimension combine_distributions reg (inr (VStr name :: vals)) include [].
  Proof.
    intros Hk Ha Hv. unfold combine_measurements. destruct kwargs as [|kv kwargs]; [congruence|]. cbn [combine_obs].
    rewrite Ha. cbn [bind].
    assert (mapM (fun a => get_item a (kv :: kwargs)) args = Ok vals) as ->; [|reflexivity].
    apply mapM_Forall2. clear Ha. induction Hv as [|a v args vals Hav Hv IH]; constructor; auto. unfold get_item. rewrite Hav. reflexivity.
  Qed.
End Combine.

(** ** np_uncertainty *)
Section Uncertainty.
  Context {V X : Type}.
  Lemma args_to_kwargs_spec (params : list string) : NoDup params -> forall (args pre : list X) (kw : od string X),
    length pre + length args <= length params -> length pre <= length params ->
    (forall i a, nth_error params (length pre + i) = Some a -> i < length args -> ~ In a (od_keys kw)) ->
    exists kw', foldM (fun kw ia => match Some params with
                        | None => Err TypeError
                        | Some names => match nth_error names (fst ia) with
                                        | Some a => Ok (od_set a (snd ia) kw)
                                        | None => Err IndexError
                                        end
                        end) (enum_from (length pre) args) kw = Ok kw' /\
      (forall i a, nth_error params (length pre + i) = Some a -> i < length args -> od_get a kw' = nth_error args i) /\
      (forall a, (forall i, nth_error params (length pre + i) = Some a -> length args <= i) -> od_get a kw' = od_get a kw) /\
      (forall a, In a (od_keys kw') <-> In a (od_keys kw) \/ exists i, nth_error params (length pre + i) = Some a /\ i < length args).
  Proof.
    intro Hnd. induction args as [|x args IH]; intros pre kw Hlen Hpre Hdis; cbn [enum_from foldM].
    - exists kw. split; [reflexivity|]. split; [intros; cbn in *; lia|]. split; [reflexivity|].
      intro a. split; [auto|]. intros [Hin|(i & _ & Hi)]; [exact Hin|cbn in Hi; lia].
    - cbn [length] in *. cbn [fst snd]. destruct (nth_error params (length pre)) as [a|] eqn:Ea; [|apply nth_error_None in Ea; lia].
      cbn [bind]. 
      assert (Hsucc : S (length pre) = length (pre ++ [x])) by (rewrite app_length; cbn; lia).
      rewrite Hsucc.
      assert (Hne : forall i b, nth_error params (length (pre ++ [x]) + i) = Some b -> b <> a).
      { intros i b Hb ->. rewrite NoDup_nth_error in Hnd. assert (length pre = length (pre ++ [x]) + i); [|rewrite app_length in *; cbn in *; lia].
        apply Hnd; [apply nth_error_Some; congruence|congruence]. }
      destruct (IH (pre ++ [x]) (od_set a x kw)) as (kw' & E & H1 & H2 & H3).
      + rewrite app_length; cbn; lia.
      + rewrite app_length; cbn; lia.
      + intros i b Hb Hi Hin. apply od_keys_set_In in Hin as [->|Hin]; [eapply Hne; eauto|].
        eapply (Hdis (S i) b); [|lia|exact Hin]. rewrite app_length in Hb; cbn in Hb. replace (length pre + S i) with (length pre + 1 + i) by lia. exact Hb.
      + exists kw'. split; [exact E|].
        assert (Hsh : forall i, length (pre ++ [x]) + i = length pre + S i) by (intro; rewrite app_length; cbn; lia).
        split; [|split].
        * intros [|i] b Hb Hi.
          -- rewrite Nat.add_0_r, Ea in Hb. injection Hb as <-. rewrite H2; [cbn; apply od_get_set_eq|].
             intros i Hi'. exfalso. eapply Hne; [exact Hi'|reflexivity].
          -- cbn [nth_error]. apply H1; [rewrite Hsh; exact Hb|lia].
        * intros b Hb. rewrite H2.
          -- apply od_get_set_ne. intros ->. specialize (Hb 0). rewrite Nat.add_0_r in Hb. specialize (Hb Ea). lia.
          -- intros i Hi. rewrite Hsh in Hi. specialize (Hb _ Hi). lia.
        * intro b. rewrite H3, od_keys_set_In. split.
          -- intros [[->|Hin]|(i & Hi & Hlt)].
             ++ right. exists 0. rewrite Nat.add_0_r. split; [exact Ea|lia].
             ++ left; exact Hin.
             ++ right. exists (S i). rewrite <- Hsh. split; [exact Hi|lia].
          -- intros [Hin|([|i] & Hi & Hlt)]; [left; right; exact Hin| |].
             ++ left; left. rewrite Nat.add_0_r in Hi. congruence.
             ++ right. exists i. rewrite Hsh. split; [exact Hi|lia].
  Qed.

  Lemma bind_same (params : list string) (args : list X) kwargs :
    NoDup params -> (forall i a, nth_error params i = Some a -> i < length args -> ~ In a (od_keys kwargs)) ->
    length args <= length params ->
    exists kw, args_to_kwargs (Some params) args kwargs = Ok kw /\ bind_call params [] kw = bind_call params args kwargs.
  Proof.
    intros Hnd Hdis Hlen. unfold args_to_kwargs, enumerate.
    destruct (args_to_kwargs_spec params Hnd args [] kwargs) as (kw & E & H1 & H2 & H3); [exact Hlen|cbn; lia|exact Hdis|].
    exists kw. split; [exact E|]. unfold bind_call. cbn [length]. 
    replace (length params <? 0) with false by (symmetry; apply Nat.ltb_ge; lia).
    replace (length params <? length args) with false by (symmetry; apply Nat.ltb_ge; lia). cbn [skipn].
    assert (Hex : existsb (fun kv => negb (memb (fst kv) params)) kw =
                  existsb (fun kv => negb (memb (fst kv) (skipn (length args) params))) kwargs).
    { apply eq_true_iff_eq. rewrite !existsb_exists. split.
      - intros ([k v] & Hin & Hk). cbn in Hk. apply negb_true_iff, memb_notIn in Hk.
        assert (Hkk : In k (od_keys kw)) by (apply (in_map fst _ _ Hin)). apply H3 in Hkk as [Hkk|(i & Hi & _)].
        + apply in_map_iff in Hkk as ([k' v'] & E' & Hin'). cbn in E'; subst k'. exists (k, v'). split; [exact Hin'|]. cbn.
          apply negb_true_iff, memb_notIn. intro Hs. apply Hk. rewrite <- (firstn_skipn (length args) params). apply in_or_app; right; exact Hs.
        + exfalso. apply Hk. eapply nth_error_In. exact Hi.
      - intros ([k v] & Hin & Hk). cbn in Hk. apply negb_true_iff, memb_notIn in Hk.
        assert (Hkk : In k (od_keys kwargs)) by (apply (in_map fst _ _ Hin)).
        assert (Hkw : In k (od_keys kw)) by (apply H3; left; exact Hkk).
        apply in_map_iff in Hkw as ([k' v'] & E' & Hin'). cbn in E'; subst k'. exists (k, v'). split; [exact Hin'|]. cbn.
        apply negb_true_iff, memb_notIn. intro Hp. apply In_nth_error in Hp as (i & Hi).
        destruct (Nat.lt_ge_cases i (length args)) as [Hlt|Hge]; [eapply Hdis; eauto|].
        apply Hk. apply nth_error_In with (n := i - length args). rewrite <- Hi. rewrite <- (firstn_skipn (length args) params) at 2.
        rewrite nth_error_app2; rewrite firstn_length_le by exact Hlen; [reflexivity|exact Hge]. }
    rewrite Hex. destruct (existsb _ kwargs); [reflexivity|].
    assert (Hm : forall (f : string -> result X) l1 l2, mapM f (l1 ++ l2) = do a <- mapM f l1; do b <- mapM f l2; Ok (a ++ b)).
    { intros f l1 l2. induction l1 as [|x l1 IH]; cbn; [destruct (mapM f l2); reflexivity|].
      destruct (f x); cbn; [|reflexivity]. rewrite IH. destruct (mapM f l1); cbn; [|reflexivity]. destruct (mapM f l2); reflexivity. }
    rewrite <- (firstn_skipn (length args) params) at 1. rewrite Hm.
    assert (mapM (fun k => match od_get k kw with Some v => Ok v | None => Err TypeError end) (firstn (length args) params) = Ok args) as ->.
    { apply mapM_Forall2. clear -H1 Hlen. cbn in H1.
      assert (Hg : forall i a, nth_error params i = Some a -> i < length args -> od_get a kw = nth_error args i) by exact H1. clear H1.
      revert params Hlen Hg. induction args as [|x args IH]; intros [|p params] Hlen Hg; cbn in *; try lia; constructor.
      - rewrite (Hg 0 p eq_refl) by lia. reflexivity.
      - apply IH; [lia|]. intros i a Hi Hlt. apply (Hg (S i) a Hi). lia. }
    cbn [bind].
    assert (Hrest : mapM (fun k => match od_get k kw with Some v => Ok v | None => Err TypeError end) (skipn (length args) params) =
                    mapM (fun k => match od_get k kwargs with Some v => Ok v | None => Err TypeError end) (skipn (length args) params)).
    { apply mapM_ext_in. intros k Hk. rewrite H2; [reflexivity|]. cbn. intros i Hi.
      destruct (Nat.lt_ge_cases i (length args)) as [Hlt|Hge]; [|exact Hge]. exfalso.
      apply In_nth_error in Hk as (j & Hj). assert (Hj' : nth_error params (length args + j) = Some k).
      { rewrite <- (firstn_skipn (length args) params). rewrite nth_error_app2; rewrite firstn_length_le by exact Hlen; [|lia].
        replace (length args + j - length args) with j by lia. exact Hj. }
      rewrite NoDup_nth_error in Hnd. assert (i = length args + j); [|lia]. apply Hnd; [apply nth_error_Some; congruence|congruence]. }
    rewrite Hrest. clear. destruct (mapM _ _) as [rest|]; reflexivity.
  Qed.

  Variable params : list string.
  Variable f : od string V -> list X -> result V.
  Lemma parallel_serial points sched args kwargs : NoDup params -> points <> [] ->
    (forall i a, nth_error params i = Some a -> i < length args -> ~ In a (od_keys kwargs)) ->
    Permutation sched (seq 0 (length points)) ->
    forall vs, parallel params f (Some params) points sched args kwargs = Ok vs <-> serial params f points args kwargs = Ok vs.
  Proof.
    intros Hnd Hne Hdis Hp vs. unfold parallel, serial.
    destruct (Nat.le_gt_cases (length args) (length params)) as [Hlen|Hlen].
    - destruct (bind_same params args kwargs Hnd Hdis Hlen) as (kw & E & Hb). rewrite E. cbn [bind]. rewrite pool_map_spec by exact Hp.
      rewrite (mapM_ext_in _ (fun par => call params f par args kwargs)); [reflexivity|].
      intros par _. unfold call. rewrite Hb. reflexivity.
    - destruct points as [|par points]; [congruence|]. cbn [mapM].
      assert (call params f par args kwargs = Err TypeError) as ->.
      { unfold call, bind_call. apply Nat.ltb_lt in Hlen. rewrite Hlen. reflexivity. }
      split; [|discriminate].
      assert (exists e, args_to_kwargs (Some params) args kwargs = Err e) as [e ->]; [|discriminate].
      unfold args_to_kwargs, enumerate. assert (Hgen : forall args k kw, length params < k + length args -> k <= length params ->
        exists e, foldM (fun (kw : od string X) ia => match Some params with
                        | None => Err TypeError
                        | Some names => match nth_error names (fst ia) with
                                        | Some a => Ok (od_set a (snd ia) kw)
                                        | None => Err IndexError
                                        end
                        end) (enum_from k args) kw = Err e).
      { clear. induction args as [|x args IH]; intros k kw H1 H2; cbn [length] in *; [lia|]. cbn [enum_from foldM fst snd].
        destruct (nth_error params k) as [a|] eqn:Ea; [|eexists; reflexivity]. cbn [bind]. apply IH; [lia|].
        assert (k < length params) by (apply nth_error_Some; congruence). lia. }
      apply Hgen; lia.
  Qed.
End Uncertainty.
