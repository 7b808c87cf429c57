From Verif Require Import Base BaseLemmas Registry_Model Registry_Spec.
From Coq Require Import Sorting.Sorted.
Set Implicit Arguments.


Section Flat.
  Context {Obj : Type}.
  Notation step := (@step Obj flat_mro).
  Notation run := (@run Obj flat_mro).
  Notation instances := (@instances Obj flat_mro).

  Definition inv (h : @heap Obj) : Prop :=
    od_get 0 h = None /\ NoDup (od_keys h) /\ forall c r, od_get c h = Some r -> NoDup (od_keys r).

  Lemma inv_owner h c : inv h -> owner flat_mro h c = if od_mem c h then Some c else None.
  Proof.
    intros [H0 _]. unfold owner, flat_mro. cbn [owner_in]. unfold od_mem. rewrite H0.
    destruct (od_get c h); reflexivity.
  Qed.
  Lemma inv_instances h c : inv h -> instances h c = od_get c h.
  Proof.
    intro Hi. unfold Registry_Model.instances. rewrite (inv_owner c Hi).
    unfold od_mem. destruct (od_get c h) eqn:E; [exact E|reflexivity].
  Qed.

  Lemma inv_set h c r : inv h -> c <> 0 -> NoDup (od_keys r) -> inv (od_set c r h).
  Proof.
    intros [H0 [Hnd Hr]] Hc Hnr. split; [|split].
    - rewrite od_get_set_ne; auto.
    - apply od_set_NoDup; auto.
    - intros c' r'. rewrite od_get_set. destruct (eqb_spec c' c) as [->|ne].
      + intros [= <-]. exact Hnr.
      + apply Hr.
  Qed.

  Lemma create_flat h c n o : inv h -> c <> 0 ->
    exists r, NoDup (od_keys r) /\
      r = (match od_get c h with Some r => r | None => [] end) /\
      (forall c', od_get c' (create flat_mro c n o h)
         = if eqb c' c then Some (od_set n o r) else od_get c' h) /\
      inv (create flat_mro c n o h).
  Proof.
    intros Hi Hc. unfold create. rewrite (inv_owner c Hi). unfold od_mem.
    destruct (od_get c h) as [r|] eqn:E.
    - rewrite (inv_owner c Hi). unfold od_mem. rewrite E. rewrite E.
      assert (Hr : NoDup (od_keys r)) by (apply Hi in E; exact E).
      exists r. split; [exact Hr|]. split; [reflexivity|]. split.
      + intro c'. rewrite od_get_set. reflexivity.
      + apply inv_set; auto. apply od_set_NoDup; auto.
    - assert (Hi1 : inv (od_set c [] h)) by (apply inv_set; auto; constructor).
      rewrite (inv_owner c Hi1). unfold od_mem. rewrite od_get_set_eq. rewrite od_get_set_eq.
      exists []. split; [constructor|]. split; [reflexivity|]. split.
      + intro c'. rewrite !od_get_set. destruct (eqb c' c); reflexivity.
      + apply inv_set; auto. apply od_set_NoDup; constructor.
  Qed.

  (** Effect of one operation on the registry of one class *)
  Definition reg_step (r : option (@reg Obj)) (e : @ev Obj) : option reg :=
    match e with
    | ECreate n o => Some (od_set n o (match r with Some r => r | None => [] end))
    | EGet _ => r
    | EDel n => match r with Some r => Some (od_pop n r) | None => None end
    | EClear => Some []
    end.

  Lemma step_flat h o : inv h -> class_of o <> 0 ->
    inv (fst (step h o)) /\
    forall c, od_get c (fst (step h o)) =
      if eqb c (class_of o) then reg_step (od_get c h) (to_ev o) else od_get c h.
  Proof.
    intros Hi Hc. destruct o as [c n x|c n|c n|c]; cbn [class_of] in Hc; cbn [step fst to_ev class_of reg_step].
    - destruct (@create_flat h c n x Hi Hc) as [r [Hnd [-> [Hget Hinv]]]].
      split; [exact Hinv|]. intro c'. rewrite Hget.
      destruct (eqb_spec c' c) as [->|]; reflexivity.
    - split; [exact Hi|]. intro c'. destruct (eqb c' c); reflexivity.
    - unfold del_instance. rewrite (inv_owner c Hi). unfold od_mem.
      destruct (od_get c h) as [r|] eqn:E.
      + rewrite E. unfold od_mem. destruct (od_get n r) as [v|] eqn:En; cbn [fst].
        * split.
          -- apply inv_set; auto. apply od_pop_NoDup. apply Hi in E. exact E.
          -- intro c'. rewrite od_get_set. destruct (eqb_spec c' c) as [->|]; [|reflexivity].
             rewrite E. reflexivity.
        * split; [exact Hi|]. intro c'. destruct (eqb_spec c' c) as [->|]; [|reflexivity].
          rewrite E. rewrite od_pop_none; [reflexivity|]. apply od_get_None. exact En.
      + cbn [fst]. split; [exact Hi|]. intro c'. destruct (eqb_spec c' c) as [->|]; [|reflexivity].
        rewrite E. reflexivity.
    - split; [apply inv_set; auto; constructor|]. intro c'. unfold clear_all. rewrite od_get_set.
      destruct (eqb_spec c' c); reflexivity.
  Qed.

  Lemma inv_init : inv init.
  Proof. split; [reflexivity|]. split; [constructor|]. cbn. discriminate. Qed.

  Lemma run_flat ops h c : inv h -> Forall (fun o => class_of o <> 0) ops ->
    inv (run ops h) /\
    od_get c (run ops h) = fold_left reg_step (events_of c ops) (od_get c h).
  Proof.
    revert h; induction ops as [|o ops IH]; intros h Hi Hf; [split; auto|].
    cbn [Registry_Model.run fold_left]. inversion Hf as [|? ? Ho Hf']; subst.
    destruct (step_flat o Hi Ho) as [Hi' Hg].
    destruct (IH _ Hi' Hf') as [Hr1 Hr2]. unfold Registry_Model.run in Hr1, Hr2.
    split; [exact Hr1|]. rewrite Hr2. rewrite Hg. unfold events_of. cbn [filter].
    destruct (eqb_spec c (class_of o)) as [->|ne]; [|reflexivity].
    cbn [map fold_left]. reflexivity.
  Qed.

  Lemma run_instances ops c : Forall (fun o => class_of o <> 0) ops ->
    instances (run ops init) c = fold_left reg_step (events_of c ops) None.
  Proof.
    intro Hf. destruct (@run_flat ops init c inv_init Hf) as [Hi Hg].
    rewrite inv_instances by exact Hi. rewrite Hg. reflexivity.
  Qed.

  (** ** The registry of one class refines the history specification. *)
  Definition regs (evs : list (@ev Obj)) : option reg := fold_left reg_step evs None.

  Lemma regs_snoc evs e : regs (evs ++ [e]) = reg_step (regs evs) e.
  Proof. unfold regs. rewrite fold_left_app. reflexivity. Qed.

  Lemma regs_spec evs :
    match regs evs with
    | None => touched (rev evs) = false /\ forall n, latest (rev evs) n = None /\ birth (rev evs) n = None
    | Some r => touched (rev evs) = true /\ NoDup (od_keys r) /\
        (forall n, od_get n r = latest (rev evs) n) /\
        (forall n, In n (od_keys r) <-> birth (rev evs) n <> None) /\
        StronglySorted (fun a b => exists i j, birth (rev evs) a = Some i /\ birth (rev evs) b = Some j /\ i < j) (od_keys r) /\
        (forall n i, birth (rev evs) n = Some i -> i < length evs)
    end.
  Proof.
    induction evs as [|e evs IH] using rev_ind; [cbn; auto|].
    rewrite regs_snoc, rev_app_distr. cbn [rev app].
    set (hist := rev evs) in *.
    assert (Hlen : length hist = length evs) by apply rev_length.
    destruct e as [n o|n|n|]; cbn [reg_step].
    - (* create *)
      cbn [touched]. split; [reflexivity|].
      destruct (regs evs) as [r|].
      + destruct IH as [_ [Hnd [Hget [Hin [Hsort Hlt]]]]].
        split; [apply od_set_NoDup; exact Hnd|].
        split; [intro m; rewrite od_get_set; cbn [latest]; rewrite Hget; reflexivity|].
        assert (Hb : forall m, birth (ECreate n o :: hist) m =
                   if eqb m n then match birth hist m with Some i => Some i | None => Some (length hist) end
                   else birth hist m) by reflexivity.
        split; [|split].
        * intro m. rewrite od_keys_set_In, Hb, Hin.
          destruct (eqb_spec m n) as [->|ne].
          -- destruct (birth hist n); intuition congruence.
          -- intuition congruence.
        * rewrite od_keys_set. destruct (memb_spec n (od_keys r)) as [Hi|Hni].
          -- assert (Heq : forall m, birth (ECreate n o :: hist) m = birth hist m).
             { intro m. rewrite Hb. destruct (eqb_spec m n) as [->|]; [|reflexivity].
               apply Hin in Hi. destruct (birth hist n); congruence. }
             clear -Hsort Heq. induction Hsort as [|a l Hs IH Hfa]; constructor; auto.
             eapply Forall_impl; [|exact Hfa]. intros b [i [j [H1 [H2 H3]]]].
             exists i, j. rewrite !Heq. auto.
          -- assert (Hbn : birth hist n = None).
             { destruct (birth hist n) eqn:E; [|reflexivity]. exfalso. apply Hni. apply Hin. congruence. }
             assert (Hold : forall m, In m (od_keys r) -> birth (ECreate n o :: hist) m = birth hist m).
             { intros m Hm. rewrite Hb. destruct (eqb_spec m n) as [->|]; [tauto|reflexivity]. }
             assert (Hnew : birth (ECreate n o :: hist) n = Some (length hist)).
             { rewrite Hb, eqb_refl, Hbn. reflexivity. }
             assert (Hgen : forall l, (forall m, In m l -> In m (od_keys r)) ->
                StronglySorted (fun a b => exists i j, birth hist a = Some i /\ birth hist b = Some j /\ i < j) l ->
                StronglySorted (fun a b => exists i j, birth (ECreate n o :: hist) a = Some i /\
                   birth (ECreate n o :: hist) b = Some j /\ i < j) (l ++ [n])).
             { intros l Hl Hs. induction Hs as [|a l Hs IHs Hfa]; cbn [app].
               - constructor; constructor.
               - constructor; [apply IHs; intros; apply Hl; right; assumption|].
                 apply Forall_app. split.
                 + rewrite Forall_forall in Hfa |- *. intros b Hbl.
                   destruct (Hfa b Hbl) as [i [j [H1 [H2 H3]]]]. exists i, j.
                   rewrite !Hold; [auto|apply Hl; right; exact Hbl|apply Hl; left; reflexivity].
                 + constructor; [|constructor].
                   assert (Ha : In a (od_keys r)) by (apply Hl; left; reflexivity).
                   destruct (birth hist a) as [i|] eqn:Ea.
                   2: { exfalso. apply Hin in Ha. congruence. }
                   exists i, (length hist). split; [rewrite Hold; auto|]. split; [exact Hnew|].
                   rewrite Hlen. eapply Hlt; eauto. }
             apply Hgen; auto.
        * intros m i. rewrite Hb, app_length. cbn [length].
          destruct (eqb m n).
          -- destruct (birth hist m) as [k|] eqn:E; intro Heq; injection Heq as <-; [|lia].
             specialize (Hlt _ _ E). lia.
          -- intro E. specialize (Hlt _ _ E). lia.
      + destruct IH as [_ IH]. cbn [od_set]. split; [repeat constructor; auto|].
        split; [|split; [|split]].
        * intro m. cbn [latest od_get]. destruct (eqb m n); [reflexivity|]. symmetry. apply IH.
        * intro m. cbn [birth od_keys map fst In]. destruct (IH m) as [_ Hm]. destruct (eqb_spec m n) as [->|ne].
          -- rewrite Hm. intuition congruence.
          -- rewrite Hm. intuition congruence.
        * cbn. constructor; constructor.
        * intros m i. cbn [birth]. destruct (IH m) as [_ Hm]. rewrite Hm, app_length. cbn [length].
          destruct (eqb m n); [intros [= <-]; lia|discriminate].
    - (* get *)
      cbn. destruct (regs evs) as [r|]; [|exact IH].
      destruct IH as [Ht [H1 [H2 [H3 [H4 H5]]]]]. repeat (split; [assumption|]).
      intros m i Hm. rewrite app_length. cbn. specialize (H5 _ _ Hm). lia.
    - (* del *)
      cbn [touched]. destruct (regs evs) as [r|].
      + destruct IH as [Ht [Hnd [Hget [Hin [Hsort Hlt]]]]].
        split; [exact Ht|]. split; [apply od_pop_NoDup; exact Hnd|].
        split; [intro m; rewrite od_get_pop by exact Hnd; cbn [latest]; rewrite Hget; reflexivity|].
        split; [|split].
        * intro m. rewrite od_keys_pop by exact Hnd. rewrite filter_In, Hin. cbn [birth].
          destruct (eqb_spec n m) as [->|ne]; cbn.
          -- rewrite eqb_refl. intuition congruence.
          -- destruct (eqb_spec m n); [congruence|]. intuition congruence.
        * rewrite od_keys_pop by exact Hnd. clear -Hsort.
          induction Hsort as [|a l Hs IHs Hfa]; cbn; [constructor|].
          destruct (eqb_spec n a) as [->|ne]; cbn; [exact IHs|].
          constructor; [exact IHs|].
          rewrite Forall_forall in Hfa |- *. intros b Hb. apply filter_In in Hb as [Hb1 Hb2].
          destruct (Hfa b Hb1) as [i [j H]]. exists i, j. cbn [birth].
          destruct (eqb_spec a n); [congruence|]. destruct (eqb_spec b n) as [->|]; [|exact H].
          rewrite eqb_refl in Hb2. discriminate.
        * intros m i. cbn [birth]. rewrite app_length. cbn [length]. destruct (eqb m n); [discriminate|].
          intro E. specialize (Hlt _ _ E). lia.
      + destruct IH as [Ht IH]. split; [exact Ht|]. intro m. cbn [birth latest]. destruct (IH m) as [-> ->].
        destruct (eqb m n); auto.
    - (* clear *)
      cbn. split; [reflexivity|]. split; [constructor|]. split; [reflexivity|].
      split; [intuition congruence|]. split; [constructor|discriminate].
  Qed.

  (** ** Consequences used by the property theorems *)
  Lemma get_after_history ops c n : Forall (fun o => class_of o <> 0) ops ->
    get_instance flat_mro c n (run ops init) =
      match latest (rev (events_of c ops)) n with
      | Some o => Ok o
      | None => if touched (rev (events_of c ops)) then Err KeyError else Err AttributeError
      end.
  Proof.
    intro Hf. unfold get_instance. rewrite run_instances by exact Hf.
    fold (regs (events_of c ops)). pose proof (regs_spec (events_of c ops)) as Hs.
    destruct (regs (events_of c ops)) as [r|].
    - destruct Hs as [Ht [_ [Hg _]]]. rewrite Hg. rewrite Ht. reflexivity.
    - destruct Hs as [Ht Hs]. destruct (Hs n) as [-> _]. rewrite Ht. reflexivity.
  Qed.

  Lemma order_after_history ops c r : Forall (fun o => class_of o <> 0) ops ->
    instances (run ops init) c = Some r ->
    NoDup (od_keys r) /\
    (forall n, In n (od_keys r) <-> birth (rev (events_of c ops)) n <> None) /\
    StronglySorted (fun a b => exists i j, birth (rev (events_of c ops)) a = Some i /\
        birth (rev (events_of c ops)) b = Some j /\ i < j) (od_keys r).
  Proof.
    intros Hf E. rewrite run_instances in E by exact Hf. fold (regs (events_of c ops)) in E.
    pose proof (regs_spec (events_of c ops)) as Hs. rewrite E in Hs.
    destruct Hs as [_ [H1 [_ [H2 [H3 _]]]]]. auto.
  Qed.

  Lemma failing_op_changes_nothing mro h o e :
    snd (@Registry_Model.step Obj mro h o) = Err e -> fst (@Registry_Model.step Obj mro h o) = h.
  Proof.
    destruct o as [c n x|c n|c n|c]; cbn; try discriminate; [reflexivity|].
    unfold del_instance. destruct (owner mro h c) as [w|]; [|reflexivity].
    destruct (od_get w h) as [r|]; [|reflexivity]. destruct (od_mem n r); [discriminate|reflexivity].
  Qed.

  Lemma delete_fails_iff_absent ops c n : Forall (fun o => class_of o <> 0) ops ->
    (exists e, snd (step (run ops init) (Del c n)) = Err e) <->
    latest (rev (events_of c ops)) n = None.
  Proof.
    intro Hf. cbn. pose proof (get_after_history c n Hf) as Hg. unfold get_instance, Registry_Model.instances in Hg.
    unfold del_instance. destruct (owner flat_mro (run ops init) c) as [w|].
    - destruct (od_get w (run ops init)) as [r|].
      + unfold od_mem. destruct (od_get n r) eqn:En.
        * destruct (latest _ n); [|destruct (touched _); discriminate].
          cbn. split; [intros [e He]; discriminate|discriminate].
        * destruct (latest _ n) eqn:El; [discriminate|]. cbn. split; [reflexivity|eauto].
      + destruct (latest _ n) eqn:El; [discriminate|]. cbn. split; [reflexivity|eauto].
    - destruct (latest _ n) eqn:El; [discriminate|]. cbn. split; [reflexivity|eauto].
  Qed.

  (** Non-interference: the registry of [c] is a function of the operations on [c] alone. *)
  Lemma non_interference ops1 ops2 c :
    Forall (fun o => class_of o <> 0) ops1 -> Forall (fun o => class_of o <> 0) ops2 ->
    filter (fun o => eqb c (class_of o)) ops1 = filter (fun o => eqb c (class_of o)) ops2 ->
    instances (run ops1 init) c = instances (run ops2 init) c.
  Proof.
    intros H1 H2 E. rewrite !run_instances by assumption. unfold events_of. rewrite E. reflexivity.
  Qed.
End Flat.
