From Verif Require Import Base BaseLemmas Constraints_Model Constraints_Spec.
Set Implicit Arguments.

Lemma nodupb_NoDup {A} `{Eqb A} (l : list A) : nodupb l = true -> NoDup l.
Proof.
  induction l as [|x l IH]; cbn; [constructor|]. intro Hb. apply andb_prop in Hb as [Hx Hl].
  constructor; [|auto]. destruct (memb_spec x l); [discriminate|assumption].
Qed.

Lemma ordinaryb_ordinary {P D} `{Eqb P} `{Eqb D} (ops : list (cop P D)) :
  ordinaryb ops = true -> ordinary ops.
Proof.
  unfold ordinaryb, ordinary. intro Hb. apply andb_prop in Hb as [H1 H2]. split.
  - apply nodupb_NoDup. exact H1.
  - rewrite forallb_forall in H2. apply Forall_forall. intros cp Hi. apply nodupb_NoDup. auto.
Qed.

Lemma enum_from_map_snd {A} (l : list A) k : map snd (enum_from k l) = l.
Proof. revert k; induction l as [|x l IH]; intro k; cbn; [reflexivity|]. rewrite IH. reflexivity. Qed.
Lemma enum_from_length {A} (l : list A) k : length (enum_from k l) = length l.
Proof. revert k; induction l as [|x l IH]; intro k; cbn; [reflexivity|]. rewrite IH. reflexivity. Qed.
Lemma enum_from_In {A} (l : list A) k i x :
  In (i, x) (enum_from k l) <-> k <= i /\ nth_error l (i - k) = Some x.
Proof.
  revert k; induction l as [|y l IH]; intro k; cbn.
  - split; [tauto|]. intros [_ E]. destruct (i - k); discriminate.
  - rewrite IH. split.
    + intros [[= -> ->]|[H1 H2]].
      * split; [lia|]. rewrite Nat.sub_diag. reflexivity.
      * split; [lia|]. replace (i - k) with (S (i - S k)) by lia. exact H2.
    + intros [H1 H2]. destruct (Nat.eq_dec i k) as [->|ne].
      * rewrite Nat.sub_diag in H2. injection H2 as ->. left; reflexivity.
      * right. split; [lia|]. replace (i - k) with (S (i - S k)) in H2 by lia. exact H2.
Qed.
Lemma enumerate_In {A} (l : list A) i x : In (i, x) (enumerate l) <-> nth_error l i = Some x.
Proof. unfold enumerate. rewrite enum_from_In, Nat.sub_0_r. intuition lia. Qed.

Section Proofs.
  Context {P D V L : Type} `{EqP : Eqb P} `{EqD : Eqb D}.
  Implicit Types (s : cset P D) (p : P) (c : D) (ops : list (cop P D)).

  Definition wf (s : cset P D) : Prop := NoDup (od_keys (pars s)).

  Lemma add_one_facts ipc c reg s num p : wf s ->
    let st := add_one ipc c (reg, s) (num, p) in
    cons (snd st) = cons s /\ wf (snd st) /\
    (forall q, od_get q (pars (snd st)) = if eqb q p then Some (num, c) else od_get q (pars s)) /\
    od_keys (pars (snd st)) = filter (fun x => negb (eqb p x)) (od_keys (pars s)) ++ [p] /\
    (forall q, In q (fst st) <-> In q reg \/ (ipc = true /\ q = p)).
  Proof.
    intro Hwf. unfold add_one.
    set (s1 := if ipc then if memb p reg then remove_constraint p s else s else s).
    set (reg1 := if ipc then if memb p reg then reg else reg ++ [p] else reg).
    assert (E1 : (if ipc then if memb p reg then (reg, remove_constraint p s) else (reg ++ [p], s) else (reg, s)) = (reg1, s1)).
    { subst s1 reg1. destruct ipc; [|reflexivity]. destruct (memb p reg); reflexivity. }
    rewrite E1. cbn [fst snd].
    assert (Hs1 : cons s1 = cons s /\ wf s1 /\ od_pop p (pars s1) = od_pop p (pars s)).
    { subst s1. assert (Hpp : od_pop p (od_pop p (pars s)) = od_pop p (pars s)).
      { apply od_pop_none. apply od_get_None. apply od_get_pop_eq. exact Hwf. }
      destruct ipc; [destruct (memb p reg)|]; cbn; auto.
      split; [reflexivity|]. split; [apply od_pop_NoDup; exact Hwf|exact Hpp]. }
    destruct Hs1 as [Hc1 [Hwf1 Hpop]].
    set (s2 := if od_mem p (pars s1) then remove_constraint p s1 else s1).
    assert (Hs2 : cons s2 = cons s /\ pars s2 = od_pop p (pars s)).
    { subst s2. destruct (od_mem p (pars s1)) eqn:E; cbn.
      - split; [exact Hc1|exact Hpop].
      - split; [exact Hc1|]. rewrite <- Hpop. symmetry. apply od_pop_none.
        intro Hi. apply od_mem_In in Hi. congruence. }
    destruct Hs2 as [Hc2 Hp2]. cbn [cons pars].
    assert (Hni : ~ In p (od_keys (pars s2))).
    { rewrite Hp2. apply od_get_None. apply od_get_pop_eq. exact Hwf. }
    split; [exact Hc2|]. split; [|split; [|split]].
    - unfold wf. cbn. apply od_set_NoDup. rewrite Hp2. apply od_pop_NoDup. exact Hwf.
    - intro q. rewrite od_get_set, Hp2. rewrite od_get_pop by exact Hwf. destruct (eqb q p); reflexivity.
    - rewrite od_set_new by exact Hni. unfold od_keys. rewrite map_app. cbn.
      f_equal. fold (od_keys (pars s2)). rewrite Hp2. apply od_keys_pop. exact Hwf.
    - intro q. subst reg1. destruct ipc; [|intuition discriminate].
      destruct (memb_spec p reg).
      + split; [tauto|]. intros [|[_ ->]]; tauto.
      + rewrite in_app_iff. cbn. intuition congruence.
  Qed.

  Lemma fold_add_facts ipc c ps : forall k reg s, wf s ->
    let st := fold_left (add_one ipc c) (enum_from k ps) (reg, s) in
    cons (snd st) = cons s /\ wf (snd st) /\
    (forall q, od_get q (pars (snd st)) =
       match last_index q ps with Some i => Some (k + i, c) | None => od_get q (pars s) end) /\
    (NoDup ps -> od_keys (pars (snd st)) = filter (fun x => negb (memb x ps)) (od_keys (pars s)) ++ ps) /\
    (forall q, In q (fst st) <-> In q reg \/ (ipc = true /\ In q ps)).
  Proof.
    induction ps as [|p ps IH]; intros k reg s Hwf; cbn [enum_from fold_left last_index].
    - cbn. split; [reflexivity|]. split; [exact Hwf|]. split; [reflexivity|]. split.
      + intros _. rewrite app_nil_r. clear. induction (od_keys (pars s)) as [|x l IHl]; cbn; congruence.
      + intuition.
    - pose proof (@add_one_facts ipc c reg s k p Hwf) as Hone. cbn zeta in Hone.
      destruct (add_one ipc c (reg, s) (k, p)) as [reg' s'] eqn:E. cbn [fst snd] in Hone.
      destruct Hone as [Hc [Hwf' [Hget [Hkeys Hreg]]]].
      specialize (IH (S k) reg' s' Hwf'). cbn zeta in IH.
      destruct IH as [IHc [IHwf [IHget [IHkeys IHreg]]]].
      split; [congruence|]. split; [exact IHwf|]. split; [|split].
      + intro q. rewrite IHget. destruct (last_index q ps) as [i|].
        * f_equal. f_equal. lia.
        * rewrite Hget. destruct (eqb q p); [rewrite Nat.add_0_r|]; reflexivity.
      + intro Hnd. inversion Hnd as [|? ? Hni Hnd']; subst. rewrite (IHkeys Hnd'), Hkeys.
        rewrite filter_app. cbn. destruct (memb_spec p ps); [tauto|]. cbn.
        rewrite <- app_assoc. f_equal. cbn.
        clear. induction (od_keys (pars s)) as [|x l IHl]; cbn; [reflexivity|].
        rewrite (eqb_sym x p). destruct (eqb p x); cbn; [exact IHl|].
        unfold memb. destruct (existsb (eqb x) ps); cbn; [exact IHl|]. f_equal. exact IHl.
      + intro q. rewrite IHreg, Hreg. cbn. intuition congruence.
  Qed.

  Lemma add_facts ipc ps c reg s : wf s ->
    let st := add_constraint ipc ps c (reg, s) in
    cons (snd st) = cons s ++ [(c, ps)] /\ wf (snd st) /\
    (forall q, od_get q (pars (snd st)) =
       match last_index q ps with Some i => Some (i, c) | None => od_get q (pars s) end) /\
    (NoDup ps -> od_keys (pars (snd st)) = filter (fun x => negb (memb x ps)) (od_keys (pars s)) ++ ps) /\
    (forall q, In q (fst st) <-> In q reg \/ (ipc = true /\ In q ps)).
  Proof.
    intro Hwf. unfold add_constraint, enumerate.
    pose proof (@fold_add_facts ipc c ps 0 reg s Hwf) as Hf. cbn zeta in Hf.
    destruct (fold_left (add_one ipc c) (enum_from 0 ps) (reg, s)) as [reg' s'].
    cbn [fst snd] in *. destruct Hf as [H1 [H2 [H3 [H4 H5]]]].
    cbn [cons pars]. rewrite H1. split; [reflexivity|]. split; [exact H2|]. auto.
  Qed.

  Lemma crun_snoc ops o st : crun (ops ++ [o]) st = cstep (crun ops st) o.
  Proof. unfold crun. rewrite fold_left_app. reflexivity. Qed.

  Lemma additions_snoc ops o : additions (ops ++ [o]) =
    additions ops ++ match o with Add _ ps c => [(c, ps)] | Remove _ => [] end.
  Proof.
    induction ops as [|o' ops IH]; cbn.
    - destruct o; reflexivity.
    - destruct o'; cbn; rewrite IH; reflexivity.
  Qed.

  Lemma crun_spec reg ops :
    wf (after reg ops) /\
    cons (after reg ops) = additions ops /\
    (forall p, od_get p (pars (after reg ops)) = current (rev ops) p).
  Proof.
    unfold after. induction ops as [|o ops IH] using rev_ind.
    - cbn. split; [constructor|]. split; reflexivity.
    - rewrite crun_snoc, rev_app_distr, additions_snoc. cbn [rev app].
      destruct (crun ops (reg, empty)) as [reg' s']. cbn [snd] in IH.
      destruct IH as [Hwf [Hc Hg]]. destruct o as [ipc ps c|q]; cbn [cstep current].
      + destruct (@add_facts ipc ps c reg' s' Hwf) as [H1 [H2 [H3 _]]].
        split; [exact H2|]. split; [rewrite H1, Hc; reflexivity|].
        intro p. rewrite H3. rewrite Hg. reflexivity.
      + cbn. split; [apply od_pop_NoDup; exact Hwf|]. split; [rewrite app_nil_r; exact Hc|].
        intro p. rewrite od_get_pop by exact Hwf. rewrite Hg. reflexivity.
  Qed.

  Lemma after_get reg ops p : od_get p (pars (after reg ops)) = current (rev ops) p.
  Proof. apply crun_spec. Qed.
  Lemma after_cons reg ops : cons (after reg ops) = additions ops.
  Proof. apply crun_spec. Qed.
  Lemma after_wf reg ops : wf (after reg ops).
  Proof. apply crun_spec. Qed.

  Lemma all_parameters_spec reg ops :
    NoDup (all_parameters (after reg ops)) /\
    forall p, In p (all_parameters (after reg ops)) <-> current (rev ops) p <> None.
  Proof.
    split; [apply after_wf|]. intro p. unfold all_parameters.
    rewrite <- (after_get reg ops p). rewrite <- od_mem_In. unfold od_mem.
    destruct (od_get p (pars (after reg ops))); intuition congruence.
  Qed.

  (** Adding moves exactly the listed parameters to the end of the listing, in order. *)
  Lemma all_parameters_add reg ops ipc ps c : NoDup ps ->
    all_parameters (after reg (ops ++ [Add ipc ps c])) =
      filter (fun x => negb (memb x ps)) (all_parameters (after reg ops)) ++ ps.
  Proof.
    intro Hnd. unfold after. rewrite crun_snoc. cbn [cstep].
    assert (Hwf : wf (snd (crun ops (reg, empty)))) by apply after_wf.
    destruct (crun ops (reg, empty)) as [reg' s']. cbn [snd] in *.
    destruct (@add_facts ipc ps c reg' s' Hwf) as [_ [_ [_ [H4 _]]]]. apply H4. exact Hnd.
  Qed.
  Lemma all_parameters_remove reg ops q :
    all_parameters (after reg (ops ++ [Remove q])) =
      filter (fun x => negb (eqb q x)) (all_parameters (after reg ops)).
  Proof.
    unfold after. rewrite crun_snoc. cbn [cstep].
    assert (Hwf : wf (snd (crun ops (reg, empty)))) by apply after_wf.
    destruct (crun ops (reg, empty)) as [reg' s']. cbn [snd fst] in *.
    unfold all_parameters. cbn. apply od_keys_pop. exact Hwf.
  Qed.

  (** Parameter objects: adding with [is_parameter_constraint] registers the parameters. *)
  Lemma registry_spec reg ops q :
    In q (fst (crun ops (reg, empty))) <->
    In q reg \/ exists ps c, In (Add true ps c) ops /\ In q ps.
  Proof.
    induction ops as [|o ops IH] using rev_ind.
    - cbn. split; [auto|]. intros [|[ps [c [[] _]]]]; auto.
    - rewrite crun_snoc.
      assert (Hwf : wf (snd (crun ops (reg, empty)))) by apply after_wf.
      destruct (crun ops (reg, empty)) as [reg' s'] eqn:E. cbn [fst snd] in *.
      destruct o as [ipc ps c|p]; cbn [cstep fst].
      + destruct (@add_facts ipc ps c reg' s' Hwf) as [_ [_ [_ [_ H5]]]]. rewrite H5, IH.
        split.
        * intros [[Hr|[ps' [c' [Hi Hq]]]]|[-> Hq]].
          -- left; exact Hr.
          -- right. exists ps', c'. rewrite in_app_iff. auto.
          -- right. exists ps, c. rewrite in_app_iff. cbn. auto.
        * intros [Hr|[ps' [c' [Hi Hq]]]]; [auto|]. rewrite in_app_iff in Hi. cbn in Hi.
          destruct Hi as [Hi|[Hi|[]]].
          -- left. right. exists ps', c'. auto.
          -- injection Hi as -> -> ->. right. auto.
      + rewrite IH. split; intros [Hr|[ps' [c' [Hi Hq]]]]; auto; right; exists ps', c'.
        * rewrite in_app_iff. auto.
        * rewrite in_app_iff in Hi. cbn in Hi. destruct Hi as [Hi|[Hi|[]]]; [auto|discriminate].
  Qed.

  (** ** last_index *)
  Lemma last_index_nth p ps i : last_index p ps = Some i -> nth_error ps i = Some p.
  Proof.
    revert i; induction ps as [|q ps IH]; intros i; cbn; [discriminate|].
    destruct (last_index p ps) as [j|] eqn:E.
    - intros [= <-]. cbn. apply IH. reflexivity.
    - destruct (eqb_spec p q) as [->|]; [|discriminate]. intros [= <-]. reflexivity.
  Qed.
  Lemma last_index_None p ps : last_index p ps = None <-> ~ In p ps.
  Proof.
    induction ps as [|q ps IH]; cbn; [tauto|].
    destruct (last_index p ps) as [j|] eqn:E.
    - apply last_index_nth in E. apply nth_error_In in E. split; [discriminate|tauto].
    - destruct (eqb_spec p q) as [->|ne]; [split; [discriminate|tauto]|].
      assert (Hn : ~ In p ps) by (apply IH; reflexivity). split; [|reflexivity]. intros _ [E1|E1]; auto.
  Qed.
  Lemma last_index_bound p ps i : last_index p ps = Some i -> i < length ps.
  Proof. intro E. apply last_index_nth in E. apply nth_error_Some. congruence. Qed.
  Lemma last_index_NoDup p ps : NoDup ps -> last_index p ps = index_of p ps.
  Proof.
    intro Hnd. destruct (last_index p ps) as [i|] eqn:E.
    - symmetry. apply index_of_NoDup; auto. apply last_index_nth. exact E.
    - symmetry. apply index_of_None. apply last_index_None. exact E.
  Qed.

  (** A current constraint stems from an addition of the history that lists the parameter. *)
  Lemma current_addition ops p i c : current (rev ops) p = Some (i, c) ->
    exists ps, In (c, ps) (additions ops) /\ last_index p ps = Some i.
  Proof.
    induction ops as [|o ops IH] using rev_ind; [discriminate|].
    rewrite rev_app_distr, additions_snoc. cbn [rev app current].
    destruct o as [ipc ps c'|q].
    - destruct (last_index p ps) as [j|] eqn:E.
      + intros [= -> ->]. exists ps. rewrite in_app_iff. cbn. auto.
      + intro Hc. destruct (IH Hc) as [ps' [Hi He]]. exists ps'. rewrite in_app_iff. auto.
    - rewrite app_nil_r. destruct (eqb p q); [discriminate|]. auto.
  Qed.

  Lemma ordinary_unique ops c ps ps' : ordinary ops ->
    In (c, ps) (additions ops) -> In (c, ps') (additions ops) -> ps = ps'.
  Proof.
    intros [Hnd _] H1 H2. revert Hnd H1 H2. induction (additions ops) as [|[c0 ps0] l IH]; cbn; [tauto|].
    intros Hnd H1 H2. inversion Hnd as [|? ? Hni Hnd']; subst.
    destruct H1 as [E1|H1], H2 as [E2|H2]; auto.
    - congruence.
    - exfalso. apply Hni. apply (in_map fst) in H2. injection E1 as -> ->. exact H2.
    - exfalso. apply Hni. apply (in_map fst) in H1. injection E2 as -> ->. exact H1.
  Qed.

  (** ** Central values *)
  Section Central.
    Variable is_str : P -> bool.
    Variable cv : D -> arr V.
    Notation get_central := (get_central is_str cv).
    Notation get_central_all := (get_central_all is_str cv).

    Lemma fits_component n (a : arr V) i : fits n a -> i < n -> exists v, component a i = Some v.
    Proof.
      destruct a as [v|l|rows]; cbn; [|intros <-|tauto].
      - intros -> Hi. assert (i = 0) as -> by lia. cbn. eauto.
      - intro Hi. apply nth_error_Some in Hi. destruct (nth_error l i); [eauto|congruence].
    Qed.

    Lemma get_central_component s p i c v : od_get p (pars s) = Some (i, c) ->
      component (cv c) i = Some v -> get_central p s = Ok v.
    Proof.
      unfold Constraints_Model.get_central. intros -> Hcomp.
      destruct (cv c) as [w|l|rows]; cbn in Hcomp; [| |discriminate].
      - destruct (Nat.eqb i 0); [congruence|discriminate].
      - destruct l as [|w [|w' l]].
        + destruct i; discriminate.
        + destruct i as [|[|i]]; cbn in *; congruence.
        + rewrite Hcomp. reflexivity.
    Qed.

    Lemma get_central_all_spec reg ops :
      Forall (fun cp => fits (length (snd cp)) (cv (fst cp))) (additions ops) ->
      exists d, get_central_all (after reg ops) = Ok d /\
        od_keys d = all_parameters (after reg ops) /\
        forall p, match current (rev ops) p with
                  | Some (i, c) => exists v, od_get p d = Some v /\ component (cv c) i = Some v
                  | None => od_get p d = None
                  end.
    Proof.
      intro Hfit. set (s := after reg ops).
      assert (Hone : forall p, In p (od_keys (pars s)) -> exists i c v,
                current (rev ops) p = Some (i, c) /\ component (cv c) i = Some v /\ get_central p s = Ok v).
      { intros p Hp. destruct (od_get p (pars s)) as [[i c]|] eqn:E.
        2: { apply od_get_None in E. tauto. }
        assert (E' := E). subst s. rewrite after_get in E'.
        destruct (current_addition _ _ E') as [ps [Hi Hl]].
        rewrite Forall_forall in Hfit. specialize (Hfit _ Hi). cbn in Hfit.
        apply last_index_bound in Hl as Hb. destruct (fits_component _ Hfit Hb) as [v Hv].
        exists i, c, v. split; [exact E'|]. split; [exact Hv|]. eapply get_central_component; eauto. }
      unfold Constraints_Model.get_central_all.
      destruct (@mapM_total _ _ (fun p => do v <- get_central p s; Ok (p, v)) (od_keys (pars s))) as [d Hd].
      { intros p Hp. destruct (Hone p Hp) as [i [c [v [_ [_ Hg]]]]]. rewrite Hg. cbn. eauto. }
      exists d. split; [exact Hd|]. apply mapM_Ok in Hd.
      assert (Hk : od_keys d = od_keys (pars s)).
      { clear -Hd. induction Hd as [|p [q v] l l' Hpv _ IH]; [reflexivity|]. cbn.
        unfold od_keys in IH. rewrite IH. f_equal.
        destruct (get_central p s); cbn in Hpv; [|discriminate]. congruence. }
      split; [exact Hk|].
      assert (Hgd : forall p v, In (p, v) d -> get_central p s = Ok v).
      { clear -Hd. induction Hd as [|p [q v] l l' Hpv _ IH]; [intros ? ? []|].
        intros p' v' [Heq|Hi]; [|auto]. injection Heq as <- <-.
        destruct (get_central p s) eqn:E; cbn in Hpv; [|discriminate]. congruence. }
      intro p. destruct (current (rev ops) p) as [[i c]|] eqn:Ec.
      - assert (Hp : In p (od_keys (pars s))).
        { apply od_get_In_keys with (i, c). subst s. rewrite after_get. exact Ec. }
        destruct (Hone p Hp) as [i' [c' [v [Ec' [Hv Hg]]]]].
        assert (Hin : In p (od_keys d)) by (rewrite Hk; exact Hp).
        destruct (od_get p d) as [w|] eqn:Ew.
        + exists w. split; [reflexivity|]. apply od_get_Some_In in Ew. apply Hgd in Ew. congruence.
        + apply od_get_None in Ew. tauto.
      - apply od_get_None. rewrite Hk. apply od_get_None. subst s. rewrite after_get. exact Ec.
    Qed.

    Lemma get_central_raises reg ops p :
      current (rev ops) p = None <->
      get_central p (after reg ops) = Err (if is_str p then ValueError else TypeError) /\
      od_get p (pars (after reg ops)) = None.
    Proof.
      unfold Constraints_Model.get_central. rewrite after_get. split.
      - intros ->. auto.
      - tauto.
    Qed.
  End Central.
End Proofs.
