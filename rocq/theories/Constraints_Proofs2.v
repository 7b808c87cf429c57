From Verif Require Import Base BaseLemmas Constraints_Model Constraints_Spec Constraints_Proofs.

Section OfList.
  Context {K W : Type} `{Eqb K}.

  Lemma od_update_In (l d : od K W) k v : od_get k (od_update d l) = Some v -> In (k, v) l \/ od_get k d = Some v.
  Proof.
    unfold od_update. revert d; induction l as [|[k' v'] l IH]; cbn [fold_left fst snd]; intros d E; [auto|].
    destruct (IH _ E) as [Hi|Hd]; [left; right; exact Hi|].
    rewrite od_get_set in Hd. destruct (eqb_spec k k') as [->|ne]; [|auto].
    injection Hd as ->. left; left; reflexivity.
  Qed.
  Lemma od_update_keys (l d : od K W) k : In k (od_keys (od_update d l)) <-> In k (od_keys l) \/ In k (od_keys d).
  Proof.
    unfold od_update. revert d; induction l as [|[k' v'] l IH]; cbn [fold_left fst snd]; intros d; cbn; [tauto|].
    unfold od_keys in *. rewrite IH. fold (od_keys (od_set k' v' d)). rewrite od_keys_set_In. 
    unfold od_keys. intuition congruence.
  Qed.
  Lemma od_of_list_In (l : od K W) k v : od_get k (od_of_list l) = Some v -> In (k, v) l.
  Proof. intro E. apply od_update_In in E. destruct E as [|E]; [assumption|discriminate]. Qed.
  Lemma od_of_list_keys (l : od K W) k : In k (od_keys (od_of_list l)) <-> In k (od_keys l).
  Proof. unfold od_of_list. rewrite od_update_keys. cbn. tauto. Qed.
  Lemma od_update_nodup (l d : od K W) : NoDup (od_keys (d ++ l)) -> od_update d l = d ++ l.
  Proof.
    unfold od_update. revert d; induction l as [|[k v] l IH]; intros d Hnd; cbn [fold_left fst snd].
    - rewrite app_nil_r. reflexivity.
    - assert (Hni : ~ In k (od_keys d)).
      { unfold od_keys in *. rewrite map_app in Hnd. cbn in Hnd.
        apply NoDup_remove_2 in Hnd. rewrite in_app_iff in Hnd. tauto. }
      rewrite od_set_new by exact Hni. rewrite IH.
      + rewrite <- app_assoc. reflexivity.
      + rewrite <- app_assoc. exact Hnd.
  Qed.
  Lemma od_of_list_nodup (l : od K W) : NoDup (od_keys l) -> od_of_list l = l.
  Proof. intro Hnd. unfold od_of_list. rewrite od_update_nodup; [reflexivity|exact Hnd]. Qed.
End OfList.

Section Random.
  Context {P D V : Type} `{EqP : Eqb P} `{EqD : Eqb D}.
  Variable draw : nat -> D -> arr V.

  Lemma pick_component size n (a : arr V) i : sample_fits size n a -> i < n ->
    exists b, sample_component size a i = Some b /\ pick size i a = Ok b.
  Proof.
    destruct size as [m|]; destruct a as [v|l|rows]; cbn; try tauto.
    - intros [-> Hl] Hi. assert (i = 0) as -> by lia. rewrite Hl, !Nat.eqb_refl. cbn. eexists; split; reflexivity.
    - intros [Hl Hf] Hi. rewrite Hl, Nat.eqb_refl. clear Hl.
      assert (Hc : exists col, column rows i = Some col /\
         mapM (fun r => match nth_error r i with Some v => Ok v | None => Err IndexError end) rows = Ok col).
      { induction Hf as [|r rows Hr _ [col [IH1 IH2]]]; cbn; [eexists; split; reflexivity|].
        assert (Hlt : i < length r) by lia. apply nth_error_Some in Hlt.
        destruct (nth_error r i) as [v|]; [|congruence]. cbn. rewrite IH1, IH2. cbn. eexists; split; reflexivity. }
      destruct Hc as [col [H1 H2]]. rewrite H1, H2. cbn. eexists; split; reflexivity.
    - intros -> Hi. assert (i = 0) as -> by lia. cbn. eexists; split; reflexivity.
    - intros <- Hi. apply nth_error_Some in Hi. destruct (nth_error l i); [cbn; eexists; split; reflexivity|congruence].
  Qed.

  Lemma random_constraints_spec (s : cset P D) c ps : In (c, ps) (cons s) ->
    exists k, od_get c (random_constraints draw s) = Some (draw k c) /\
              nth_error (map fst (cons s)) k = Some c.
  Proof.
    intro Hi. unfold random_constraints.
    set (l := map _ (enumerate (cons s))).
    assert (Hk : In c (od_keys (od_of_list l))).
    { rewrite od_of_list_keys. subst l. unfold od_keys. rewrite map_map. cbn [fst snd].
      apply In_nth_error in Hi as [k Hk]. apply in_map_iff. exists (k, (c, ps)). split; [reflexivity|].
      apply enumerate_In. exact Hk. }
    apply od_mem_In in Hk. unfold od_mem in Hk.
    destruct (od_get c (od_of_list l)) as [a|] eqn:E; [|discriminate].
    apply od_of_list_In in E. subst l. apply in_map_iff in E as [[k [c' ps']] [Heq Hin]].
    cbn [fst snd] in Heq. injection Heq as -> <-. exists k. split; [reflexivity|].
    apply enumerate_In in Hin. rewrite nth_error_map, Hin. reflexivity.
  Qed.

  Lemma get_random_all_spec size reg (ops : list (cop P D)) :
    (forall k c ps, In (c, ps) (additions ops) -> sample_fits size (length ps) (draw k c)) ->
    exists d joint,
      get_random_all draw size (after reg ops) = Ok d /\
      od_keys d = all_parameters (after reg ops) /\
      (forall c, In c (map fst (additions ops)) ->
         exists k, joint c = draw k c /\ nth_error (map fst (additions ops)) k = Some c) /\
      forall p, match current (rev ops) p with
                | Some (i, c) => exists a, od_get p d = Some a /\ sample_component size (joint c) i = Some a
                | None => od_get p d = None
                end.
  Proof.
    intro Hfit. set (s := after reg ops).
    pose (rc := random_constraints draw s).
    pose (joint := fun c => match od_get c rc with Some a => a | None => draw 0 c end).
    assert (Hjoint : forall c, In c (map fst (additions ops)) ->
        exists k, od_get c rc = Some (draw k c) /\ nth_error (map fst (additions ops)) k = Some c).
    { intros c Hc. apply in_map_iff in Hc as [[c' ps] [Heq Hi]]. cbn in Heq. subst c'.
      rewrite <- (after_cons reg ops) in Hi. rewrite <- (after_cons reg ops).
      apply random_constraints_spec in Hi. exact Hi. }
    set (f := fun pe : P * (nat * D) => let '(p, (num, c)) := pe in
                    match od_get c rc with
                    | None => Err KeyError
                    | Some carr => do v <- pick size num carr; Ok (p, v)
                    end).
    assert (Hf : forall p i c, In (p, (i, c)) (pars s) -> exists a,
               current (rev ops) p = Some (i, c) /\ sample_component size (joint c) i = Some a /\ f (p, (i, c)) = Ok (p, a)).
    { intros p i c Hin. apply od_In_get in Hin; [|apply after_wf]. subst s. rewrite after_get in Hin.
      destruct (current_addition _ _ Hin) as [ps [Hadd Hli]].
      assert (Hc : In c (map fst (additions ops))) by (apply in_map_iff; exists (c, ps); auto).
      destruct (Hjoint c Hc) as [k [Hk _]].
      destruct (pick_component size (length ps) (draw k c) i (Hfit k c ps Hadd)) as [b [Hb1 Hb2]].
      { eapply last_index_bound; eauto. }
      exists b. split; [exact Hin|]. subst joint f. cbn beta iota. rewrite Hk. split; [exact Hb1|].
      rewrite Hb2. reflexivity. }
    destruct (mapM_dict f (fun p ic a => sample_component size (joint (snd ic)) (fst ic) = Some a) (pars s))
      as [d [Hd [Hk Hg]]].
    { intros p [i c] Hin. destruct (Hf _ _ _ Hin) as [a [_ [E1 E2]]]. exists a. auto. }
    exists d, joint. split; [exact Hd|]. split; [exact Hk|]. split.
    - intros c Hc. destruct (Hjoint c Hc) as [k [H1 H2]]. exists k. subst joint. cbn beta. rewrite H1. auto.
    - intro p. specialize (Hg p). unfold s in Hg. rewrite after_get in Hg.
      destruct (current (rev ops) p) as [[i c]|]; exact Hg.
  Qed.
End Random.

Section Errors.
  Context {P D V : Type} `{EqP : Eqb P} `{EqD : Eqb D}.
  Variable error_left error_right : D -> arr V.

  Lemma ravel_component n (a : arr V) i : fits n a -> i < n ->
    exists v, component a i = Some v /\ ravel_at a i = Ok v.
  Proof.
    destruct a as [v|l|rows]; cbn; [|intros <-|tauto].
    - intros -> Hi. assert (i = 0) as -> by lia. cbn. eauto.
    - intro Hi. apply nth_error_Some in Hi. unfold ravel_at. destruct (nth_error l i); [eauto|congruence].
  Qed.

  Lemma get_1d_errors_rightleft_spec reg (ops : list (cop P D)) :
    Forall (fun cp => fits (length (snd cp)) (error_left (fst cp)) /\
                      fits (length (snd cp)) (error_right (fst cp))) (additions ops) ->
    exists d, get_1d_errors_rightleft error_left error_right (after reg ops) = Ok d /\
      od_keys d = all_parameters (after reg ops) /\
      forall p, match current (rev ops) p with
                | Some (i, c) => exists r l, od_get p d = Some (r, l) /\
                    component (error_right c) i = Some r /\ component (error_left c) i = Some l
                | None => od_get p d = None
                end.
  Proof.
    intro Hfit. set (s := after reg ops). unfold get_1d_errors_rightleft.
    set (f := fun pe : P * (nat * D) => _).
    destruct (mapM_dict f (fun p ic rl => component (error_right (snd ic)) (fst ic) = Some (fst rl) /\
                 component (error_left (snd ic)) (fst ic) = Some (snd rl)) (pars s)) as [d [Hd [Hk Hg]]].
    { intros p [i c] Hin. apply od_In_get in Hin; [|apply after_wf]. unfold s in Hin. rewrite after_get in Hin.
      destruct (current_addition _ _ Hin) as [ps [Hadd Hli]].
      apply last_index_bound in Hli. rewrite Forall_forall in Hfit. destruct (Hfit _ Hadd) as [Fl Fr]. cbn in Fl, Fr.
      destruct (ravel_component _ _ _ Fl Hli) as [vl [Cl Rl]].
      destruct (ravel_component _ _ _ Fr Hli) as [vr [Cr Rr]].
      exists (vr, vl). cbn [fst snd]. split; [|auto]. subst f. cbn beta iota.
      unfold s. rewrite after_cons.
      destruct (index_of_In c (map fst (additions ops))) as [idx Hidx].
      { apply in_map_iff. exists (c, ps). auto. }
      rewrite Hidx. apply index_of_Some in Hidx as [Hnth _].
      rewrite nth_error_map in Hnth. destruct (nth_error (additions ops) idx) as [[c' ps']|] eqn:En; [|discriminate].
      cbn in Hnth. injection Hnth as ->. rewrite !nth_error_map, En. cbn [option_map fst].
      rewrite Rr, Rl. reflexivity. }
    exists d. split; [exact Hd|]. split; [exact Hk|]. intro p. specialize (Hg p).
    unfold s in Hg. rewrite after_get in Hg. destruct (current (rev ops) p) as [[i c]|]; [|exact Hg].
    destruct Hg as [[r l] [E1 [E2 E3]]]. exists r, l. auto.
  Qed.
End Errors.

Section LogProb.
  Context {P D V L : Type} `{EqP : Eqb P} `{EqD : Eqb D}.
  Variable lp : bool -> D -> larg V -> L.

  Lemma p_cons_live reg (ops : list (cop P D)) excl c ps : ordinary ops -> In (c, ps) (additions ops) ->
    p_cons excl (after reg ops) c ps = filter (live (rev ops) excl c) ps.
  Proof.
    intros Hord Hin. unfold p_cons. apply filter_ext_in. intros p Hp. unfold live. f_equal.
    rewrite after_get.
    assert (Hnd : NoDup ps).
    { destruct Hord as [_ Hf]. rewrite Forall_forall in Hf. apply (Hf _ Hin). }
    destruct (index_of_In p ps Hp) as [i Hi]. rewrite Hi.
    destruct (current (rev ops) p) as [[j c']|] eqn:E.
    - destruct (eqb_spec c c') as [<-|ne].
      + destruct (current_addition _ _ E) as [ps' [Hin' Hl]].
        rewrite (ordinary_unique _ _ _ Hord Hin' Hin) in Hl.
        rewrite (last_index_NoDup _ Hnd), Hi in Hl. injection Hl as ->. apply eqb_refl.
      + apply neq_eqb. congruence.
    - apply neq_eqb. discriminate.
  Qed.

  Lemma positions_nil (f : P -> bool) (ps : list P) :
    positions f ps = [] <-> (forall p, In p ps -> f p = false).
  Proof.
    unfold positions, enumerate. generalize 0 as k. induction ps as [|p ps IH]; intro k; cbn.
    - intuition.
    - destruct (f p) eqn:E; cbn.
      + split; [discriminate|]. intro Hf. rewrite Hf in E; [discriminate|auto].
      + rewrite (IH (S k)). split; [intros Hf q [<-|Hq]; auto|auto].
  Qed.
  Lemma positions_ext (f g : P -> bool) (ps : list P) :
    (forall p, In p ps -> f p = g p) -> positions f ps = positions g ps.
  Proof.
    unfold positions, enumerate. generalize 0 as k. induction ps as [|p ps IH]; intros k Hfg; cbn; [reflexivity|].
    rewrite (Hfg p) by (left; reflexivity).
    specialize (IH (S k) (fun q Hq => Hfg q (or_intror Hq))).
    destruct (g p); cbn; rewrite IH; reflexivity.
  Qed.
  Lemma filter_length_le' {A} (f : A -> bool) (l : list A) : length (filter f l) <= length l.
  Proof. induction l as [|x l IH]; cbn; [lia|]. destruct (f x); cbn; lia. Qed.
  Lemma filter_length_all {A} (f : A -> bool) (l : list A) :
    length (filter f l) = length l <-> forall x, In x l -> f x = true.
  Proof.
    induction l as [|x l IH]; cbn; [intuition|].
    pose proof (filter_length_le' f l) as Hle. destruct (f x) eqn:E; cbn.
    - split.
      + intros Hl y [<-|Hy]; [exact E|]. apply IH; [lia|exact Hy].
      + intro Hf. f_equal. apply IH. auto.
    - split; [lia|]. intro Hf. rewrite (Hf x) in E; [discriminate|auto].
  Qed.

  Lemma mapM_values (d : od P V) (val : P -> V) l :
    (forall p, In p l -> od_get p d = Some (val p)) ->
    mapM (fun p => match od_get p d with Some v => Ok v | None => Err KeyError end) l = Ok (map val l).
  Proof.
    induction l as [|p l IH]; cbn; intro Hv; [reflexivity|].
    rewrite (Hv p) by auto. cbn. rewrite IH by auto. reflexivity.
  Qed.

  Lemma logprob_step_spec reg (ops : list (cop P D)) d val excl delta acc c ps :
    ordinary ops -> In (c, ps) (additions ops) -> ~ In c (od_keys acc) ->
    (forall p, In p ps -> live (rev ops) excl c p = true -> od_get p d = Some (val p)) ->
    logprob_step lp d excl delta (after reg ops) acc (c, ps)
      = Ok (acc ++ contribution lp delta val (rev ops) excl (c, ps)).
  Proof.
    intros Hord Hin Hni Hval. unfold logprob_step. rewrite (p_cons_live _ _ _ _ _ Hord Hin).
    rewrite (mapM_values d val).
    2: { intros p Hp. apply filter_In in Hp as [H1 H2]. auto. }
    cbn [bind]. unfold contribution.
    destruct (filter (live (rev ops) excl c) ps) as [|p0 l] eqn:El; cbn [map].
    - rewrite app_nil_r. reflexivity.
    - destruct (Nat.eqb (length ps) 1) eqn:E1.
      + rewrite od_set_new by exact Hni. reflexivity.
      + rewrite od_set_new by exact Hni. repeat f_equal.
        assert (Hlen : length (val p0 :: map val l) = length (filter (live (rev ops) excl c) ps)).
        { rewrite El. cbn. rewrite map_length. reflexivity. }
        rewrite Hlen.
        assert (Hpos : positions (fun p => negb (memb p (p0 :: l))) ps =
                       positions (fun p => negb (live (rev ops) excl c p)) ps).
        { apply positions_ext. intros p Hp. f_equal. rewrite <- El.
          destruct (memb_spec p (filter (live (rev ops) excl c) ps)) as [Hi|Hn].
          - apply filter_In in Hi as [_ ->]. reflexivity.
          - destruct (live (rev ops) excl c p) eqn:E; [|reflexivity]. exfalso. apply Hn. apply filter_In. auto. }
        rewrite Hpos. clear Hpos.
        destruct (Nat.eqb_spec (length (filter (live (rev ops) excl c) ps)) (length ps)) as [Hall|Hnot].
        * rewrite filter_length_all in Hall.
          assert (Hnil : positions (fun p => negb (live (rev ops) excl c p)) ps = []).
          { apply positions_nil. intros p Hp. rewrite (Hall p Hp). reflexivity. }
          rewrite Hnil. reflexivity.
        * destruct (positions (fun p => negb (live (rev ops) excl c p)) ps) as [|x y] eqn:En; [|reflexivity].
          exfalso. apply Hnot. apply filter_length_all. intros p Hp.
          assert (Hz := proj1 (positions_nil _ _) En p Hp). cbn in Hz.
          destruct (live (rev ops) excl c p); [reflexivity|discriminate].
  Qed.

  Lemma contribution_keys delta (val : P -> V) hist excl cp k :
    In k (od_keys (contribution lp delta val hist excl cp)) -> k = fst cp.
  Proof.
    destruct cp as [c ps]. unfold contribution. destruct (filter _ ps); cbn; [tauto|]. intuition.
  Qed.

  Lemma get_logprobability_all_spec reg (ops : list (cop P D)) d val excl delta :
    ordinary ops ->
    (forall c ps p, In (c, ps) (additions ops) -> In p ps -> live (rev ops) excl c p = true ->
       od_get p d = Some (val p)) ->
    get_logprobability_all lp d excl delta (after reg ops)
      = Ok (flat_map (contribution lp delta val (rev ops) excl) (additions ops)).
  Proof.
    intros Hord Hval. unfold get_logprobability_all. rewrite after_cons.
    assert (Hgen : forall l acc, (forall cp, In cp l -> In cp (additions ops)) ->
       NoDup (map fst l) -> (forall c, In c (map fst l) -> ~ In c (od_keys acc)) ->
       foldM (logprob_step lp d excl delta (after reg ops)) l acc
         = Ok (acc ++ flat_map (contribution lp delta val (rev ops) excl) l)).
    { induction l as [|[c ps] l IH]; intros acc Hsub Hnd Hdis; cbn [foldM flat_map].
      - rewrite app_nil_r. reflexivity.
      - rewrite (logprob_step_spec _ _ _ val); auto.
        + cbn [bind]. inversion Hnd as [|? ? Hni Hnd']; subst. rewrite IH.
          * rewrite <- app_assoc. reflexivity.
          * intros; apply Hsub; right; assumption.
          * exact Hnd'.
          * intros c' Hc' Hin. unfold od_keys in Hin. rewrite map_app, in_app_iff in Hin. destruct Hin as [Hin|Hin].
            -- apply (Hdis c'); [right; exact Hc'|exact Hin].
            -- apply contribution_keys in Hin. cbn in Hin. subst c'. tauto.
        + apply Hsub. left. reflexivity.
        + apply Hdis. left. reflexivity.
        + intros p Hp Hl. apply (Hval c ps); auto. apply Hsub. left. reflexivity. }
    rewrite Hgen; auto. apply Hord.
  Qed.

  (** A live parameter without a value raises. *)
  Lemma get_logprobability_all_missing reg (ops : list (cop P D)) d excl delta c ps p :
    ordinary ops -> In (c, ps) (additions ops) -> In p ps ->
    live (rev ops) excl c p = true -> od_get p d = None ->
    get_logprobability_all lp d excl delta (after reg ops) = Err KeyError.
  Proof.
    intros Hord Hin Hp Hl Hd. unfold get_logprobability_all. rewrite after_cons.
    assert (Hstep : forall acc c' ps', In (c', ps') (additions ops) ->
       (exists acc', logprob_step lp d excl delta (after reg ops) acc (c', ps') = Ok acc') \/
       logprob_step lp d excl delta (after reg ops) acc (c', ps') = Err KeyError).
    { intros acc c' ps' Hi'. unfold logprob_step.
      assert (Hm : forall l, (exists x, mapM (fun p => match od_get p d with Some v => Ok v | None => Err KeyError end) l = Ok x) \/
                 mapM (fun p => match od_get p d with Some v => Ok v | None => Err KeyError end) l = Err KeyError).
      { induction l as [|q l [[x IH]|IH]]; cbn; [eauto| |]; destruct (od_get q d); cbn; rewrite ?IH; cbn; eauto. }
      destruct (Hm (p_cons excl (after reg ops) c' ps')) as [[x ->]| ->]; cbn [bind]; [|auto].
      left. destruct x; [eauto|]. destruct (Nat.eqb (length ps') 1); eauto. }
    assert (Hbad : forall acc, logprob_step lp d excl delta (after reg ops) acc (c, ps) = Err KeyError).
    { intro acc. unfold logprob_step. rewrite (p_cons_live _ _ _ _ _ Hord Hin).
      assert (Hip : In p (filter (live (rev ops) excl c) ps)) by (apply filter_In; auto).
      assert (Hm : mapM (fun p => match od_get p d with Some v => Ok v | None => Err KeyError end)
                    (filter (live (rev ops) excl c) ps) = Err KeyError).
      { induction (filter (live (rev ops) excl c) ps) as [|q l IH]; [destruct Hip|]. cbn.
        destruct (od_get q d) eqn:Eq; cbn; [|reflexivity].
        destruct Hip as [->|Hip]; [congruence|]. rewrite IH by exact Hip. reflexivity. }
      rewrite Hm. reflexivity. }
    assert (Hgen : forall l acc, (forall cp, In cp l -> In cp (additions ops)) -> In (c, ps) l ->
              foldM (logprob_step lp d excl delta (after reg ops)) l acc = Err KeyError).
    { induction l as [|[c' ps'] l IH]; intros acc Hsub Hi; [destruct Hi|]. cbn [foldM].
      destruct Hi as [[= -> ->]|Hi].
      - rewrite Hbad. reflexivity.
      - destruct (Hstep acc c' ps') as [[acc' ->]| ->]; [apply Hsub; left; reflexivity| |reflexivity].
        cbn [bind]. apply IH; [intros; apply Hsub; right; assumption|exact Hi]. }
    apply Hgen; auto.
  Qed.

  (** Each distribution contributes at most once. *)
  Lemma contributions_NoDup (ops : list (cop P D)) val excl delta : ordinary ops ->
    NoDup (od_keys (flat_map (contribution lp delta val (rev ops) excl) (additions ops))).
  Proof.
    intros [Hnd _]. revert Hnd. generalize (rev ops) as hist. intro hist.
    induction (additions ops) as [|cp l IH]; intro Hnd; cbn; [constructor|].
    inversion Hnd as [|? ? Hni Hnd']; subst.
    unfold od_keys. rewrite map_app.
    assert (Hsub : forall k, In k (map fst (flat_map (contribution lp delta val hist excl) l)) -> In k (map fst l)).
    { intros k Hk. apply in_map_iff in Hk as [[k' v] [<- Hk]]. apply in_flat_map in Hk as [cp' [H1 H2]].
      apply (in_map fst) in H2. apply contribution_keys in H2. cbn in H2. cbn. rewrite H2. apply in_map. exact H1. }
    destruct cp as [c ps]. unfold contribution at 1. destruct (filter _ ps); cbn; [apply IH; exact Hnd'|].
    constructor; [|apply IH; exact Hnd']. intro Hk. apply Hni. cbn. apply Hsub. exact Hk.
  Qed.

  Lemma contribution_local delta (val val' : P -> V) hist excl excl' c ps :
    (forall p, In p ps -> live hist excl c p = live hist excl' c p) ->
    (forall p, In p ps -> live hist excl c p = true -> val p = val' p) ->
    contribution lp delta val hist excl (c, ps) = contribution lp delta val' hist excl' (c, ps).
  Proof.
    intros Hl Hv. unfold contribution.
    assert (Hf : filter (live hist excl c) ps = filter (live hist excl' c) ps) by (apply filter_ext_in; exact Hl).
    assert (Hpos : positions (fun p => negb (live hist excl c p)) ps = positions (fun p => negb (live hist excl' c p)) ps).
    { apply positions_ext. intros p Hp. rewrite Hl by exact Hp. reflexivity. }
    rewrite <- Hf, Hpos.
    assert (Hm : map val (filter (live hist excl c) ps) = map val' (filter (live hist excl c) ps)).
    { apply map_ext_in. intros p Hp. apply filter_In in Hp as [H1 H2]. auto. }
    destruct (filter (live hist excl c) ps) as [|p0 l] eqn:El; [reflexivity|].
    rewrite Hm. cbn in Hm. injection Hm as H0 _. rewrite H0. reflexivity.
  Qed.

  (** ** Single-parameter probabilities *)
  Lemma single_spec reg (ops : list (cop P D)) p v delta : ordinary ops ->
    match current (rev ops) p with
    | None => get_logprobability_single lp p v delta (after reg ops) = Err KeyError
    | Some (i, c) =>
      exists x, get_logprobability_single lp p v delta (after reg ops) = Ok x /\
        get_logprobability_all lp [(p, v)]
          (filter (fun q => negb (eqb q p)) (all_parameters (after reg ops))) delta (after reg ops)
        = Ok [(c, x)]
    end.
  Proof.
    intro Hord. unfold get_logprobability_single. rewrite after_get.
    destruct (current (rev ops) p) as [[i c]|] eqn:Ec; [|reflexivity].
    destruct (current_addition _ _ Ec) as [ps [Hin Hli]].
    assert (Hps : od_get c (od_of_list (cons (after reg ops))) = Some ps).
    { rewrite after_cons. rewrite od_of_list_nodup by apply Hord. apply od_In_get; [apply Hord|exact Hin]. }
    rewrite Hps.
    assert (Hnd : NoDup ps). { destruct Hord as [_ Hf]. rewrite Forall_forall in Hf. apply (Hf _ Hin). }
    assert (Hpin : In p ps) by (apply last_index_nth in Hli; eapply nth_error_In; eauto).
    set (excl := filter (fun q => negb (eqb q p)) (all_parameters (after reg ops))).
    assert (Hlive : forall c' q, live (rev ops) excl c' q = eqb q p && eqb c' c).
    { intros c' q. unfold live. subst excl.
      destruct (all_parameters_spec reg ops) as [_ Hall].
      destruct (eqb_spec q p) as [->|ne].
      - rewrite Ec. destruct (memb_spec p (filter (fun q => negb (eqb q p)) (all_parameters (after reg ops)))) as [Hi|Hn]; [|reflexivity].
        apply filter_In in Hi as [_ Hi]. rewrite eqb_refl in Hi. discriminate.
      - destruct (memb_spec q (filter (fun q => negb (eqb q p)) (all_parameters (after reg ops)))) as [Hi|Hn]; [reflexivity|].
        cbn. destruct (current (rev ops) q) as [[j c0]|] eqn:Eq; [|reflexivity].
        exfalso. apply Hn. apply filter_In. split; [apply Hall; congruence|]. rewrite (neq_eqb ne). reflexivity. }
    assert (Hall := get_logprobability_all_spec reg ops [(p, v)] (fun _ => v) excl delta Hord).
    rewrite Hall; clear Hall.
    2: { intros c' ps' q _ _ Hl. rewrite Hlive in Hl. apply andb_prop in Hl as [Hq _].
         apply eqb_true in Hq. subst q. cbn. rewrite eqb_refl. reflexivity. }
    assert (Hone : contribution lp delta (fun _ => v) (rev ops) excl (c, ps) =
      [(c, if Nat.eqb (length ps) 1 then lp delta c (Scalar v)
           else lp delta c (Vec [v] (Some (positions (fun q => negb (eqb q p)) ps))))]).
    { unfold contribution.
      assert (Hf : filter (live (rev ops) excl c) ps = [p]).
      { rewrite (filter_ext _ (fun q => eqb q p)).
        2: { intro q. rewrite Hlive, eqb_refl, andb_true_r. reflexivity. }
        clear -Hnd Hpin. induction Hnd as [|q l Hni Hnd IH]; [destruct Hpin|]. cbn.
        destruct (eqb_spec q p) as [->|ne].
        - f_equal. clear -Hni. induction l as [|q l IH]; [reflexivity|]. cbn.
          destruct (eqb_spec q p) as [->|]; [cbn in Hni; tauto|]. apply IH. cbn in Hni; tauto.
        - apply IH. destruct Hpin; [congruence|assumption]. }
      rewrite Hf. cbn [map].
      assert (Hpos : positions (fun q => negb (live (rev ops) excl c q)) ps = positions (fun q => negb (eqb q p)) ps).
      { apply positions_ext. intros q _. rewrite Hlive, eqb_refl, andb_true_r. reflexivity. }
      rewrite Hpos. destruct (Nat.eqb_spec (length ps) 1) as [H1|H1]; [reflexivity|].
      destruct (positions (fun q => negb (eqb q p)) ps) as [|x y] eqn:En; [|reflexivity].
      exfalso. apply H1.
      assert (Hz := proj1 (positions_nil _ _) En).
      destruct ps as [|q1 [|q2 ps']]; [destruct Hpin|reflexivity|].
      exfalso. inversion Hnd as [|? ? Hni _]; subst.
      assert (q1 = p) as ->.
      { specialize (Hz q1 (or_introl eq_refl)). cbn in Hz. destruct (eqb_spec q1 p); [assumption|discriminate]. }
      specialize (Hz q2 (or_intror (or_introl eq_refl))). cbn in Hz.
      destruct (eqb_spec q2 p) as [->|]; [|discriminate]. apply Hni. left; reflexivity. }
    assert (Hsum : flat_map (contribution lp delta (fun _ => v) (rev ops) excl) (additions ops)
              = contribution lp delta (fun _ => v) (rev ops) excl (c, ps)).
    { assert (Hndf : NoDup (map fst (additions ops))) by apply Hord.
      assert (Hother : forall c' ps', c' <> c -> contribution lp delta (fun _ => v) (rev ops) excl (c', ps') = []).
      { intros c' ps' Hne. unfold contribution.
        assert (Hf : filter (live (rev ops) excl c') ps' = []).
        { induction ps' as [|q ps' IH]; [reflexivity|]. cbn. rewrite Hlive, (neq_eqb Hne), andb_false_r. exact IH. }
        rewrite Hf. reflexivity. }
      revert Hin Hndf. clear -Hother. induction (additions ops) as [|[c1 ps1] l IH]; intros Hin Hndf; [destruct Hin|].
      cbn [flat_map]. inversion Hndf as [|? ? Hni Hndf']; subst.
      destruct Hin as [[= -> ->]|Hin].
      - assert (Hnil : flat_map (contribution lp delta (fun _ => v) (rev ops) excl) l = []).
        { clear -Hni Hother. induction l as [|[c2 ps2] l IH]; [reflexivity|]. cbn [flat_map].
          cbn in Hni. rewrite Hother by (intro; apply Hni; auto). apply IH. tauto. }
        rewrite Hnil, app_nil_r. reflexivity.
      - rewrite (Hother c1 ps1).
        + cbn. apply IH; assumption.
        + intros ->. apply Hni. apply (in_map fst) in Hin. exact Hin. }
    rewrite Hsum, Hone. destruct (Nat.eqb (length ps) 1); eauto.
  Qed.
End LogProb.

Section SetConstraint.
  Context {P D Str Dic : Type} `{EqP : Eqb P} `{EqD : Eqb D}.
  Variable parse : Str -> result (list D).
  Variable d2d : Dic -> result (list D).
  Variable convolve : list D -> result D.
  Notation set_constraint := (set_constraint parse d2d convolve).

  Lemma set_constraint_atomic (p : P) x y (s : cset P D) e :
    snd (set_constraint p x y s) = Err e -> fst (set_constraint p x y s) = s.
  Proof.
    unfold Constraints_Model.set_constraint. destruct x as [x|], y as [y|]; cbn; auto.
    - destruct (bind (parse x) _); cbn; [discriminate|reflexivity].
    - destruct (bind (d2d y) _); cbn; [discriminate|reflexivity].
  Qed.
  Lemma set_constraint_effect (p : P) x y reg ops :
    match set_constraint p x y (after reg ops) with
    | (s', Ok tt) =>
        (exists l d, (match x, y with Some a, None => parse a | None, Some b => d2d b | _, _ => Err TypeError end) = Ok l /\
                     convolve l = Ok d /\ od_get p (pars s') = Some (0, d)) /\
        (forall q, q <> p -> od_get q (pars s') = current (rev ops) q)
    | (s', Err e) => s' = after reg ops
    end.
  Proof.
    assert (Hadd : forall d, let s' := snd (add_constraint false [p] d ([], after reg ops)) in
       od_get p (pars s') = Some (0, d) /\ forall q, q <> p -> od_get q (pars s') = current (rev ops) q).
    { intro d. destruct (@add_facts P D EqP false [p] d [] (after reg ops) (after_wf reg ops)) as [_ [_ [Hg _]]].
      split.
      - rewrite Hg. cbn. rewrite eqb_refl. reflexivity.
      - intros q Hq. rewrite Hg. cbn. rewrite (neq_eqb Hq). apply after_get. }
    unfold Constraints_Model.set_constraint. destruct x as [x|], y as [y|]; auto.
    - destruct (parse x) as [l|] eqn:E1; cbn [bind]; [|reflexivity].
      destruct (convolve l) as [d|] eqn:E2; [|reflexivity]. destruct (Hadd d) as [H1 H2].
      split; [exists l, d; auto|exact H2].
    - destruct (d2d y) as [l|] eqn:E1; cbn [bind]; [|reflexivity].
      destruct (convolve l) as [d|] eqn:E2; [|reflexivity]. destruct (Hadd d) as [H1 H2].
      split; [exists l, d; auto|exact H2].
  Qed.
  Lemma set_constraint_errors (p : P) (s : cset P D) x y :
    set_constraint p (Some x) (Some y) s = (s, Err ValueError) /\
    set_constraint p None None s = (s, Err TypeError).
  Proof. split; reflexivity. Qed.
End SetConstraint.
