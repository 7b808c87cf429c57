From Verif Require Import Base BaseLemmas Constraints_Model Constraints_Spec Constraints_Proofs Constraints_Proofs2 ConstraintsIO_Model.

Lemma dec_enc {A} (p : pkey A) : dec (enc p) = p.
Proof. destruct p; reflexivity. Qed.
Lemma map_dec_enc {A} (l : list (pkey A)) : map dec (map enc l) = l.
Proof. rewrite map_map. rewrite (map_ext _ _ dec_enc). apply map_id. Qed.

Section IOP.
  Context {A C S Str : Type} `{EqA : Eqb A} `{EqC : Eqb C}.
  Notation P := (pkey A).
  Notation D := (nat * C)%type.
  Variable ser : C -> S.
  Variable load : S -> result C.
  Variable load_string : Str -> result C.

  Definition same_content (x y : option (nat * D)) : Prop :=
    match x, y with
    | Some (i, d), Some (j, e) => i = j /\ snd d = snd e
    | None, None => True
    | _, _ => False
    end.

  (** Content-wise agreement of a dictionary with a content-valued function *)
  Definition content_at (s : cset P D) (p : P) : option (nat * C) :=
    option_map (fun x => (fst x, snd (snd x))) (od_get p (pars s)).

  (** the content left by a list of additions (oldest first) on top of [base] *)
  Fixpoint layered (base : P -> option (nat * C)) (l : list (C * list P)) (p : P) : option (nat * C) :=
    match l with
    | [] => base p
    | (c, ps) :: l' => layered (fun q => match last_index q ps with Some i => Some (i, c) | None => base q end) l' p
    end.

  Lemma layered_app base l l' p : layered base (l ++ l') p = layered (layered base l) l' p.
  Proof.
    revert base; induction l as [|[c ps] l IH]; intro base; cbn; [reflexivity|]. apply IH.
  Qed.
  Lemma layered_ext base base' l p : (forall q, base q = base' q) -> layered base l p = layered base' l p.
  Proof.
    revert base base'; induction l as [|[c ps] l IH]; intros base base' Hb; cbn; [apply Hb|].
    apply IH. intro q. rewrite Hb. reflexivity.
  Qed.

  Definition strip (cp : D * list P) : C * list P := (snd (fst cp), snd cp).

  Lemma load_entries pname (l : list (D * list P)) next s : wf s ->
    (forall cp, In cp l -> load (ser (snd (fst cp))) = Ok (snd (fst cp))) ->
    exists next' s', foldM (load_entry load load_string pname)
        (map (fun cp => YFull pname (map enc (snd cp)) (ser (snd (fst cp)))) l) (next, s) = Ok (next', s') /\
      wf s' /\
      map strip (cons s') = map strip (cons s ++ l) /\
      forall p, content_at s' p = layered (content_at s) (map strip l) p.
  Proof.
    revert next s; induction l as [|[[i c] ps] l IH]; intros next s Hwf Hload; cbn [map foldM].
    - exists next, s. split; [reflexivity|]. split; [exact Hwf|]. rewrite app_nil_r. split; reflexivity.
    - cbn [fst snd]. unfold load_entry at 1. rewrite eqb_refl.
      pose proof (Hload _ (or_introl eq_refl)) as Hl0. cbn [fst snd] in Hl0. rewrite Hl0. cbn [bind].
      rewrite map_dec_enc.
      destruct (@add_facts P D _ false ps (next, c) [] s Hwf) as [Hc [Hwf' [Hg _]]].
      destruct (IH (Datatypes.S next) _ Hwf' (fun cp Hcp => Hload cp (or_intror Hcp))) as [n' [s' [E [Hw [Hcs Hgs]]]]].
      exists n', s'. split; [exact E|]. split; [exact Hw|]. split.
      + rewrite Hcs, Hc. rewrite !map_app. cbn. rewrite <- app_assoc. reflexivity.
      + intro p. rewrite Hgs. cbn [layered strip fst snd]. apply layered_ext. intro q. unfold content_at. rewrite Hg.
        destruct (last_index q ps); reflexivity.
  Qed.

  Lemma layered_current_adds (ops : list (cop P D)) p :
    layered (fun _ => None) (map strip (additions ops)) p =
    option_map (fun x => (fst x, snd (snd x))) (current (rev (filter (fun o => match o with Add _ _ _ => true | Remove _ => false end) ops)) p).
  Proof.
    induction ops as [|o ops IH] using rev_ind; [reflexivity|].
    rewrite additions_snoc, filter_app. destruct o as [b ps c|q]; cbn [filter].
    - rewrite map_app, layered_app, rev_app_distr. cbn.
      destruct (last_index p ps); [reflexivity|]. exact IH.
    - rewrite app_nil_r, app_nil_r. exact IH.
  Qed.

  Definition is_add (o : cop P D) : bool := match o with Add _ _ _ => true | Remove _ => false end.

  (** Erasing removals does not change a constraint that is currently in force. *)
  Lemma current_erase (hist : list (cop P D)) p ic :
    current hist p = Some ic -> current (filter is_add hist) p = Some ic.
  Proof.
    induction hist as [|o h IH]; cbn; [discriminate|]. destruct o as [b ps c|q]; cbn.
    - destruct (last_index p ps); auto.
    - destruct (eqb p q); [discriminate|auto].
  Qed.
  Lemma filter_rev {X} (f : X -> bool) l : filter f (rev l) = rev (filter f l).
  Proof.
    induction l as [|x l IH]; cbn; [reflexivity|]. rewrite filter_app, IH. cbn.
    destruct (f x); cbn; [reflexivity|]. rewrite app_nil_r. reflexivity.
  Qed.

  (** ** ParameterConstraints-like objects (no constructor arguments, no metadata) *)
  Definition bare : class := mkClass [] [].

  Lemma roundtrip_bare pname reg (ops : list (cop P D)) next :
    (forall cp, In cp (additions ops) -> load (ser (snd (fst cp))) = Ok (snd (fst cp))) ->
    exists i', bind (get_yaml_dict ser pname (mkInst bare [] (after reg ops)))
                 (fun y => from_yaml_dict load load_string bare pname None next y) = Ok i' /\
      (forall p, content_at (i_set i') p =
         option_map (fun x => (fst x, snd (snd x))) (current (rev (filter is_add ops)) p)).
  Proof.
    intro Hload. unfold get_yaml_dict. cbn [c_args i_class bare meta_of i_attrs filter bind from_yaml_dict construct forallb od_keys map andb].
    cbn. unfold yaml_list. rewrite after_cons.
    destruct (load_entries pname (additions ops) next empty) as [n' [s' [E [_ [_ Hg]]]]].
    { constructor. }
    { exact Hload. }
    cbn in E |- *. rewrite E. cbn. eexists. split; [reflexivity|]. cbn. intro p. rewrite Hg.
    rewrite <- layered_current_adds. apply layered_ext. reflexivity.
  Qed.

  (** ** Parameter differences *)
  Variable yeq : @yentry A S Str -> @yentry A S Str -> bool.
  Hypothesis yeq_spec : forall x y, reflect (x = y) (yeq x y).

  Lemma par_diff_roundtrip pname reg (defs mods : list (cop P D)) next :
    (forall cp, In cp (additions mods) -> load (ser (snd (fst cp))) = Ok (snd (fst cp))) ->
    Forall (fun o => is_add o = true) mods ->
    (forall cp, In cp (additions mods) ->
       ~ In (YFull pname (map enc (snd cp)) (ser (snd (fst cp)))) (yaml_list ser (Str:=Str) pname (after reg defs))) ->
    exists s', coerce_par_obj load load_string pname next (after reg defs)
                 (get_par_diff ser yeq pname (after reg defs) (after reg (defs ++ mods))) = Ok s' /\
      forall p, content_at s' p = content_at (after reg (defs ++ mods)) p.
  Proof.
    intros Hload Hadd Hnew.
    assert (Hdiff : get_par_diff ser yeq pname (after reg defs) (after reg (defs ++ mods)) =
        map (fun cp => YFull pname (map enc (snd cp)) (ser (snd (fst cp)))) (additions mods)).
    { unfold get_par_diff. unfold yaml_list at 2. rewrite after_cons.
      assert (Happ : additions (defs ++ mods) = additions defs ++ additions mods).
      { clear. induction defs as [|o l IH]; cbn; [reflexivity|]. destruct o; cbn; rewrite IH; reflexivity. }
      rewrite Happ, map_app, filter_app.
      set (f := fun c => negb (existsb (yeq c) (yaml_list ser pname (after reg defs)))).
      set (g := fun cp : D * list P => YFull pname (map enc (snd cp)) (ser (snd (fst cp)))).
      assert (Hin : forall y, existsb (yeq y) (yaml_list ser pname (after reg defs)) = true <->
                    In y (yaml_list ser pname (after reg defs))).
      { intro y. rewrite existsb_exists. split.
        - intros [z [Hz E]]. destruct (yeq_spec y z); [congruence|discriminate].
        - intro Hy. exists y. split; [exact Hy|]. destruct (yeq_spec y y); congruence. }
      assert (H1 : filter f (map g (additions defs)) = []).
      { assert (Hall : forall y, In y (map g (additions defs)) -> f y = false).
        { intros y Hy. subst f. cbn. rewrite (proj2 (Hin y)); [reflexivity|].
          unfold yaml_list. rewrite after_cons. exact Hy. }
        induction (map g (additions defs)) as [|y l IH]; [reflexivity|]. cbn.
        rewrite Hall by (left; reflexivity). apply IH. intros; apply Hall; right; assumption. }
      assert (H2 : filter f (map g (additions mods)) = map g (additions mods)).
      { assert (Hall : forall y, In y (map g (additions mods)) -> f y = true).
        { intros y Hy. subst f. cbn. apply in_map_iff in Hy as [cp [<- Hcp]].
          destruct (existsb (yeq (g cp)) (yaml_list ser pname (after reg defs))) eqn:E; [|reflexivity].
          apply Hin in E. exfalso. exact (Hnew cp Hcp E). }
        induction (map g (additions mods)) as [|y l IH]; [reflexivity|]. cbn.
        rewrite Hall by (left; reflexivity). f_equal. apply IH. intros; apply Hall; right; assumption. }
      rewrite H1, H2. reflexivity. }
    rewrite Hdiff. unfold coerce_par_obj.
    destruct (load_entries pname (additions mods) next (after reg defs) (after_wf reg defs) Hload) as [n' [s' [E [_ [_ Hg]]]]].
    rewrite E. cbn. exists s'. split; [reflexivity|]. intro p. rewrite Hg.
    clear -Hadd. induction mods as [|o mods IH] using rev_ind.
    - rewrite app_nil_r. reflexivity.
    - apply Forall_app in Hadd as [Hadd Ho]. inversion Ho as [|? ? Ho' _]; subst.
      destruct o as [b ps c|q]; [|discriminate]. rewrite additions_snoc, map_app, layered_app. cbn.
      rewrite app_assoc. unfold content_at at 2. rewrite after_get, rev_app_distr. cbn.
      destruct (last_index p ps); [reflexivity|].
      rewrite (IH Hadd). unfold content_at. rewrite after_get. reflexivity.
  Qed.

  (** ** Measurement-like objects: metadata round trip *)
  Lemma od_update_get (d l : od string string) k : NoDup (od_keys l) ->
    od_get k (od_update d l) = match od_get k l with Some v => Some v | None => od_get k d end.
  Proof.
    unfold od_update. revert d; induction l as [|[k0 v0] l IH]; intros d Hnd; cbn [fold_left fst snd od_get]; [reflexivity|].
    inversion Hnd as [|? ? Hni Hnd']; subst. rewrite IH by exact Hnd'. rewrite od_get_set.
    destruct (eqb_spec k k0) as [->|ne]; [|reflexivity].
    destruct (od_get k0 l) eqn:E; [|reflexivity]. apply od_get_In_keys in E. tauto.
  Qed.

  Definition norm (o : option string) : option string :=
    match o with Some v => if eqb v ""%string then None else Some v | None => None end.

  Lemma mapM_args (attrs : od string string) args :
    (forall k, In k args -> od_get k attrs <> None) ->
    exists a, mapM (fun k => match od_get k attrs with Some v => Ok (k, v) | None => Err KeyError end) args = Ok a /\
      od_keys a = args /\ forall k, od_get k a = if memb k args then od_get k attrs else None.
  Proof.
    induction args as [|k0 args IH]; intro Hk; cbn [mapM].
    - exists []. cbn. auto.
    - destruct (od_get k0 attrs) as [v0|] eqn:E0; [|exfalso; apply (Hk k0); [left; reflexivity|exact E0]].
      destruct IH as [a [Ea [Hka Hga]]]; [intros; apply Hk; right; assumption|].
      cbn [bind]. rewrite Ea. cbn [bind]. exists ((k0, v0) :: a). split; [reflexivity|].
      split; [cbn; unfold od_keys in Hka; congruence|]. intro k. cbn [od_get].
      unfold memb in *. cbn [existsb]. destruct (eqb_spec k k0) as [->|ne]; [cbn; congruence|]. apply Hga.
  Qed.

  Lemma od_get_app (d l : od string string) k :
    od_get k (d ++ l) = match od_get k d with Some v => Some v | None => od_get k l end.
  Proof.
    induction d as [|[k0 v0] d IH]; cbn; [reflexivity|]. destruct (eqb k k0); [reflexivity|exact IH].
  Qed.
  Lemma od_get_filter (f : string * string -> bool) (d : od string string) k : NoDup (od_keys d) ->
    od_get k (filter f d) = match od_get k d with Some v => if f (k, v) then Some v else None | None => None end.
  Proof.
    induction d as [|[k0 v0] d IH]; cbn; [reflexivity|]. intro Hnd. inversion Hnd as [|? ? Hni Hnd']; subst.
    destruct (f (k0, v0)) eqn:Ef; cbn.
    - destruct (eqb_spec k k0) as [->|ne]; [rewrite Ef; reflexivity|auto].
    - destruct (eqb_spec k k0) as [->|ne]; [|auto]. rewrite Ef. rewrite IH by exact Hnd'.
      assert (En : od_get k0 d = None) by (apply od_get_None; exact Hni). rewrite En. reflexivity.
  Qed.
  Lemma NoDup_keys_filter (f : string * string -> bool) (d : od string string) :
    NoDup (od_keys d) -> NoDup (od_keys (filter f d)).
  Proof.
    induction d as [|[k0 v0] d IH]; cbn; [auto|]. intro Hnd. inversion Hnd as [|? ? Hni Hnd']; subst.
    destruct (f (k0, v0)); cbn; [|auto]. constructor; [|auto].
    intro Hi. apply Hni. apply in_map_iff in Hi as [[k v] [<- Hi]]. apply filter_In in Hi as [Hi _].
    apply (in_map fst) in Hi. exact Hi.
  Qed.

  Lemma roundtrip_named cl attrs pname reg (ops : list (cop P D)) next :
    c_args cl <> [] ->
    Forall (fun kv => snd kv = ""%string) (c_defaults cl) ->
    NoDup (od_keys attrs) -> (forall k, In k (c_args cl) -> od_get k attrs <> None) ->
    (forall cp, In cp (additions ops) -> load (ser (snd (fst cp))) = Ok (snd (fst cp))) ->
    exists i', bind (get_yaml_dict ser pname (mkInst cl attrs (after reg ops)))
                 (fun y => from_yaml_dict load load_string cl pname None next y) = Ok i' /\
      (forall k, private k = false -> norm (od_get k (i_attrs i')) = norm (od_get k attrs)) /\
      (forall p, content_at (i_set i') p =
         option_map (fun x => (fst x, snd (snd x))) (current (rev (filter is_add ops)) p)).
  Proof.
    intros Hargs Hdef Hnd Hhas Hload. unfold get_yaml_dict. cbn [i_class i_attrs i_set].
    destruct (mapM_args attrs (c_args cl) Hhas) as [a [Ea [Hka Hga]]].
    destruct (load_entries pname (additions ops) next empty) as [n' [s' [E [_ [_ Hg]]]]].
    { constructor. }
    { exact Hload. }
    assert (Hcon : construct (A:=A) (C:=C) cl a = Ok (mkInst cl (a ++ c_defaults cl) empty)).
    { unfold construct. rewrite Hka.
      assert (H1 : forallb (fun k => od_mem k a) (c_args cl) = true).
      { apply forallb_forall. intros k Hk. apply od_mem_In. rewrite Hka. exact Hk. }
      assert (H2 : forallb (fun k => memb k (c_args cl)) (c_args cl) = true).
      { apply forallb_forall. intros k Hk. apply memb_In. exact Hk. }
      rewrite H1, H2. reflexivity. }
    set (meta := meta_of (mkInst cl attrs (after reg ops))) in *.
    assert (Hmeta : forall k, od_get k meta = match od_get k attrs with
         | Some v => if negb (private k) && negb (eqb v ""%string) && negb (memb k (c_args cl)) then Some v else None
         | None => None end).
    { intro k. subst meta. unfold meta_of. cbn [i_class i_attrs]. rewrite od_get_filter by exact Hnd. reflexivity. }
    assert (Hndm : NoDup (od_keys meta)) by (subst meta; apply NoDup_keys_filter; exact Hnd).
    assert (Hy : forall l, match c_args cl, meta with
       | [], [] => Ok (YPlain l)
       | args, _ => do a <- mapM (fun k => match od_get k attrs with Some v => Ok (k, v) | None => Err KeyError end) args;
                    Ok (YDict (match args with [] => None | _ => Some a end) (match meta with [] => None | _ => Some meta end) l)
       end = Ok (YDict (A:=A) (S:=S) (Str:=Str) (Some a) (match meta with [] => None | _ => Some meta end) l)).
    { intro l. destruct (c_args cl) as [|k0 args]; [congruence|].
      cbv iota zeta. rewrite Ea. destruct meta; reflexivity. }
    rewrite Hy. cbn [bind]. unfold from_yaml_dict. cbv beta iota. rewrite Hcon. cbn [bind i_class i_attrs i_set].
    unfold yaml_list. rewrite after_cons. rewrite E. cbn [bind snd]. eexists. split; [reflexivity|].
    cbn [i_attrs i_set]. split.
    - intros k Hpriv.
      replace (match match meta with [] => None | _ => Some meta end with Some m => m | None => [] end) with meta by (destruct meta; reflexivity).
      rewrite od_update_get by exact Hndm. rewrite Hmeta, od_get_app, Hga, Hpriv. cbn [negb andb].
      assert (Hd : norm (od_get k (c_defaults cl)) = None).
      { destruct (od_get k (c_defaults cl)) as [w|] eqn:Ed; [|reflexivity].
        apply od_get_Some_In in Ed. rewrite Forall_forall in Hdef. apply Hdef in Ed. cbn in Ed. subst w. reflexivity. }
      destruct (memb k (c_args cl)) eqn:Em; cbn [negb].
      + destruct (od_get k attrs) as [v|] eqn:Ek.
        * rewrite andb_false_r. reflexivity.
        * exfalso. apply memb_In in Em. exact (Hhas k Em Ek).
      + destruct (od_get k attrs) as [v|] eqn:Ek.
        * rewrite andb_true_r. destruct (eqb_spec v ""%string) as [->|ne]; cbn [negb andb]; [exact Hd|reflexivity].
        * exact Hd.
    - intro p. rewrite Hg. rewrite <- layered_current_adds. apply layered_ext. reflexivity.
  Qed.
End IOP.
