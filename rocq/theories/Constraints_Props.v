(** * Properties C03-C09, C50, C59-C62: constraint sets *)
From Verif Require Import Base Constraints_Model Constraints_Spec Constraints_Proofs Constraints_Proofs2
  ConstraintsIO_Model ConstraintsIO_Proofs.

(** C03: after any history of additions and removals, the constraint on every parameter is
    the one of its last mention ([current]): distribution and position. *)
Theorem C03_latest_constraint_wins :
  forall (P D : Type) (EqP : Eqb P) (EqD : Eqb D) reg (ops : list (cop P D)) p,
    od_get p (pars (after reg ops)) = current (rev ops) p.
Proof. intros P D EqP EqD. exact (@after_get P D EqP). Qed.
Print Assumptions C03_latest_constraint_wins.

(** C03: [all_parameters] lists exactly the constrained parameters, each once. *)
Theorem C03_all_parameters_exact :
  forall (P D : Type) (EqP : Eqb P) reg (ops : list (cop P D)),
    NoDup (all_parameters (after reg ops)) /\
    forall p, In p (all_parameters (after reg ops)) <-> current (rev ops) p <> None.
Proof. intros P D EqP. exact (@all_parameters_spec P D EqP). Qed.
Print Assumptions C03_all_parameters_exact.

(** C03: its order is that of the last additions. *)
Theorem C03_listing_order :
  forall (P D : Type) (EqP : Eqb P) reg (ops : list (cop P D)) ipc ps c q,
    (NoDup ps -> all_parameters (after reg (ops ++ [Add ipc ps c])) =
      filter (fun x => negb (memb x ps)) (all_parameters (after reg ops)) ++ ps) /\
    all_parameters (after reg (ops ++ [Remove q])) =
      filter (fun x => negb (eqb q x)) (all_parameters (after reg ops)).
Proof.
  intros P D EqP reg ops ipc ps c q. split.
  - exact (@all_parameters_add P D EqP reg ops ipc ps c).
  - exact (@all_parameters_remove P D EqP reg ops q).
Qed.
Print Assumptions C03_listing_order.

(** C03: with is_parameter_constraint, exactly the listed parameters get registered. *)
Theorem C03_parameter_objects_registered :
  forall (P D : Type) (EqP : Eqb P) reg (ops : list (cop P D)) q,
    In q (fst (crun ops (reg, empty))) <->
    In q reg \/ exists ps c, In (Add true ps c) ops /\ In q ps.
Proof. intros P D EqP. exact (@registry_spec P D EqP). Qed.
Print Assumptions C03_parameter_objects_registered.

(** C04: if every distribution has as many components as parameters it was added for, then
    the central values are those of the current constraints, component by component. *)
Theorem C04_central_values :
  forall (P D V : Type) (EqP : Eqb P) (is_str : P -> bool) (cv : D -> arr V) reg (ops : list (cop P D)),
    Forall (fun cp => fits (length (snd cp)) (cv (fst cp))) (additions ops) ->
    exists d, get_central_all is_str cv (after reg ops) = Ok d /\
      od_keys d = all_parameters (after reg ops) /\
      forall p, match current (rev ops) p with
                | Some (i, c) => exists v, od_get p d = Some v /\ component (cv c) i = Some v
                | None => od_get p d = None
                end.
Proof. intros P D V EqP. exact (@get_central_all_spec P D V EqP). Qed.
Print Assumptions C04_central_values.

(** C04: asking for an unconstrained parameter raises (ValueError; TypeError for tuples,
    whose error message cannot be built). *)
Theorem C04_unconstrained_raises :
  forall (P D V : Type) (EqP : Eqb P) (is_str : P -> bool) (cv : D -> arr V) reg (ops : list (cop P D)) p,
    current (rev ops) p = None <->
    get_central is_str cv p (after reg ops) = Err (if is_str p then ValueError else TypeError) /\
    od_get p (pars (after reg ops)) = None.
Proof. intros P D V EqP. exact (@get_central_raises P D V EqP). Qed.
Print Assumptions C04_unconstrained_raises.

(** C05: there is one joint sample per distribution, returned by one call to the generator
    for it, and every parameter is its component of its current distribution's joint sample. *)
Theorem C05_random_values_joint :
  forall (P D V : Type) (EqP : Eqb P) (EqD : Eqb D) (draw : nat -> D -> arr V) size reg (ops : list (cop P D)),
    (forall k c ps, In (c, ps) (additions ops) -> sample_fits size (length ps) (draw k c)) ->
    exists d joint,
      get_random_all draw size (after reg ops) = Ok d /\
      od_keys d = all_parameters (after reg ops) /\
      (forall c, In c (map fst (additions ops)) ->
         exists k, joint c = draw k c /\ nth_error (map fst (additions ops)) k = Some c) /\
      forall p, match current (rev ops) p with
                | Some (i, c) => exists a, od_get p d = Some a /\ sample_component size (joint c) i = Some a
                | None => od_get p d = None
                end.
Proof. intros P D V EqP EqD. exact (@get_random_all_spec P D V EqP EqD). Qed.
Print Assumptions C05_random_values_joint.

(** C06: for ordinary histories (own distribution object per addition, no duplicate names in
    one list) the result lists, in order of addition, exactly the contributions of the
    distributions that are still live for a non-excluded parameter. *)
Theorem C06_log_probability_is_sum_of_live_contributions :
  forall (P D V L : Type) (EqP : Eqb P) (EqD : Eqb D) (lp : bool -> D -> larg V -> L)
         reg (ops : list (cop P D)) d val excl delta,
    ordinary ops ->
    (forall c ps p, In (c, ps) (additions ops) -> In p ps -> live (rev ops) excl c p = true ->
       od_get p d = Some (val p)) ->
    get_logprobability_all lp d excl delta (after reg ops)
      = Ok (flat_map (contribution lp delta val (rev ops) excl) (additions ops)).
Proof. intros P D V L EqP EqD. exact (@get_logprobability_all_spec P D V L EqP EqD). Qed.
Print Assumptions C06_log_probability_is_sum_of_live_contributions.

(** C06: a live, non-excluded parameter without a value raises KeyError. *)
Theorem C06_missing_value_raises :
  forall (P D V L : Type) (EqP : Eqb P) (EqD : Eqb D) (lp : bool -> D -> larg V -> L)
         reg (ops : list (cop P D)) d excl delta c ps p,
    ordinary ops -> In (c, ps) (additions ops) -> In p ps ->
    live (rev ops) excl c p = true -> od_get p d = None ->
    get_logprobability_all lp d excl delta (after reg ops) = Err KeyError.
Proof. intros P D V L EqP EqD. exact (@get_logprobability_all_missing P D V L EqP EqD). Qed.
Print Assumptions C06_missing_value_raises.

(** C06: each distribution appears at most once. *)
Theorem C06_each_distribution_once :
  forall (P D V L : Type) (EqP : Eqb P) (EqD : Eqb D) (lp : bool -> D -> larg V -> L)
         (ops : list (cop P D)) val excl delta,
    ordinary ops ->
    NoDup (od_keys (flat_map (contribution lp delta val (rev ops) excl) (additions ops))).
Proof. intros P D V L EqP EqD. exact (@contributions_NoDup P D V L EqP EqD). Qed.
Print Assumptions C06_each_distribution_once.

(** C06: values of excluded or overridden parameters have no influence. *)
Theorem C06_only_live_values_matter :
  forall (P D V L : Type) (EqP : Eqb P) (EqD : Eqb D) (lp : bool -> D -> larg V -> L)
         delta (val val' : P -> V) hist excl excl' c ps,
    (forall p, In p ps -> live hist excl c p = live hist excl' c p) ->
    (forall p, In p ps -> live hist excl c p = true -> val p = val' p) ->
    contribution lp delta val hist excl (c, ps) = contribution lp delta val' hist excl' (c, ps).
Proof. intros P D V L EqP EqD. exact (@contribution_local P D V L EqP EqD). Qed.
Print Assumptions C06_only_live_values_matter.

(** C07 *)
Theorem C07_single_agrees_with_all :
  forall (P D V L : Type) (EqP : Eqb P) (EqD : Eqb D) (lp : bool -> D -> larg V -> L)
         reg (ops : list (cop P D)) p v delta,
    ordinary ops ->
    match current (rev ops) p with
    | None => get_logprobability_single lp p v delta (after reg ops) = Err KeyError
    | Some (i, c) =>
      exists x, get_logprobability_single lp p v delta (after reg ops) = Ok x /\
        get_logprobability_all lp [(p, v)]
          (filter (fun q => negb (eqb q p)) (all_parameters (after reg ops))) delta (after reg ops)
        = Ok [(c, x)]
    end.
Proof. intros P D V L EqP EqD. exact (@single_spec P D V L EqP EqD). Qed.
Print Assumptions C07_single_agrees_with_all.

(** C61: left and right errors are those of the current distribution's component. *)
Theorem C61_errors_rightleft :
  forall (P D V : Type) (EqP : Eqb P) (EqD : Eqb D) (error_left error_right : D -> arr V) reg (ops : list (cop P D)),
    Forall (fun cp => fits (length (snd cp)) (error_left (fst cp)) /\
                      fits (length (snd cp)) (error_right (fst cp))) (additions ops) ->
    exists d, get_1d_errors_rightleft error_left error_right (after reg ops) = Ok d /\
      od_keys d = all_parameters (after reg ops) /\
      forall p, match current (rev ops) p with
                | Some (i, c) => exists r l, od_get p d = Some (r, l) /\
                    component (error_right c) i = Some r /\ component (error_left c) i = Some l
                | None => od_get p d = None
                end.
Proof. intros P D V EqP EqD. exact (@get_1d_errors_rightleft_spec P D V EqP EqD). Qed.
Print Assumptions C61_errors_rightleft.

(** C08 (partial: "every reachable constraint set" holds only up to removals).  Saving and
    reloading a set of constraints gives, for every parameter, the content its last
    *addition* gave it, removals being forgotten ... *)
Theorem C08_roundtrip_up_to_removals_partial :
  forall (A C S Str : Type) (EqA : Eqb A) (EqC : Eqb C) (ser : C -> S) (load : S -> result C)
         (load_string : Str -> result C) pname reg (ops : list (cop (pkey A) (nat * C))) next,
    (forall cp, In cp (additions ops) -> load (ser (snd (fst cp))) = Ok (snd (fst cp))) ->
    exists i', bind (get_yaml_dict ser pname (mkInst bare [] (after reg ops)))
                 (fun y => from_yaml_dict load load_string bare pname None next y) = Ok i' /\
      (forall p, content_at (i_set i') p =
         option_map (fun x => (fst x, snd (snd x))) (current (rev (filter is_add ops)) p)).
Proof. intros A C S Str EqA EqC. exact (@roundtrip_bare A C S Str EqA). Qed.
Print Assumptions C08_roundtrip_up_to_removals_partial.

(** ... so every constraint currently in force survives. *)
Theorem C08_constraints_in_force_survive_partial :
  forall (A C S Str : Type) (EqA : Eqb A) (EqC : Eqb C) (ser : C -> S) (load : S -> result C)
         (load_string : Str -> result C) pname reg (ops : list (cop (pkey A) (nat * C))) next p i d,
    (forall cp, In cp (additions ops) -> load (ser (snd (fst cp))) = Ok (snd (fst cp))) ->
    current (rev ops) p = Some (i, d) ->
    exists i', bind (get_yaml_dict ser pname (mkInst bare [] (after reg ops)))
                 (fun y => from_yaml_dict load load_string bare pname None next y) = Ok i' /\
      content_at (i_set i') p = Some (i, snd d).
Proof.
  intros A C S Str EqA EqC ser load load_string pname reg ops next p i d Hload Hcur.
  destruct (C08_roundtrip_up_to_removals_partial A C S Str EqA EqC ser load load_string pname reg ops next Hload)
    as [i' [E Hg]].
  exists i'. split; [exact E|]. rewrite Hg. rewrite <- filter_rev.
  rewrite (current_erase _ _ _ Hcur). reflexivity.
Qed.
Print Assumptions C08_constraints_in_force_survive_partial.

(** C08 for objects with constructor arguments and metadata (Measurement): additionally all
    public, non-empty attributes survive. *)
Theorem C08_roundtrip_measurement_partial :
  forall (A C S Str : Type) (EqA : Eqb A) (EqC : Eqb C) (ser : C -> S) (load : S -> result C)
         (load_string : Str -> result C) cl attrs pname reg (ops : list (cop (pkey A) (nat * C))) next,
    c_args cl <> [] ->
    Forall (fun kv => snd kv = ""%string) (c_defaults cl) ->
    NoDup (od_keys attrs) -> (forall k, In k (c_args cl) -> od_get k attrs <> None) ->
    (forall cp, In cp (additions ops) -> load (ser (snd (fst cp))) = Ok (snd (fst cp))) ->
    exists i', bind (get_yaml_dict ser pname (mkInst cl attrs (after reg ops)))
                 (fun y => from_yaml_dict load load_string cl pname None next y) = Ok i' /\
      (forall k, private k = false -> norm (od_get k (i_attrs i')) = norm (od_get k attrs)) /\
      (forall p, content_at (i_set i') p =
         option_map (fun x => (fst x, snd (snd x))) (current (rev (filter is_add ops)) p)).
Proof. intros A C S Str EqA EqC. exact (@roundtrip_named A C S Str EqA). Qed.
Print Assumptions C08_roundtrip_measurement_partial.

(** C90: loading a file (any mixture of full and short entries, into a new or an existing object)
    either fails, or adds the constraints of the entries one after the other: the constraint on every
    parameter afterwards is the one of the last entry that mentions it, or the one before loading. *)
Definition entries {A S Str} (y : @ydata A S Str) : list (@yentry A S Str) :=
  match y with YPlain l => l | YDict _ _ l => l end.
Definition metadata {A S Str} (y : @ydata A S Str) : od string string :=
  match y with YDict _ (Some m) _ => m | _ => [] end.
Definition entry_content {A C S Str} (load : S -> result C) (load_string : Str -> result C) (pname : string)
    (e : @yentry A S Str) (pc : list (pkey A) * C) : Prop :=
  match e with
  | YFull pn ps v => pn = pname /\ fst pc = map dec ps /\ load v = Ok (snd pc)
  | YShort p v => p <> pname /\ fst pc = [KStr p] /\ load_string v = Ok (snd pc)
  end.
Fixpoint adds {A C} (next : nat) (l : list (list (pkey A) * C)) : list (cop (pkey A) (nat * C)) :=
  match l with [] => [] | (ps, c) :: l => Add false ps (next, c) :: adds (S next) l end.
Lemma add_constraint_reg {P D} {EqP : Eqb P} (ps : list P) (c : D) reg s :
  add_constraint false ps c (reg, s) = (reg, snd (add_constraint false ps c ([], s))).
Proof.
  unfold add_constraint. generalize (enumerate ps). intro l.
  assert (E : fold_left (add_one false c) l (reg, s) = (reg, snd (fold_left (add_one false c) l ([], s)))).
  { revert s. induction l as [|[n p] l IH]; intro s; [reflexivity|]. cbn [fold_left add_one]. apply IH. }
  assert (E2 : fst (fold_left (add_one false c) l ([], s)) = []).
  { clear E. revert s. induction l as [|[n p] l IH]; intro s; [reflexivity|]. cbn [fold_left add_one]. apply IH. }
  rewrite E. destruct (fold_left (add_one false c) l ([], s)) as [r s']. reflexivity.
Qed.
Lemma load_entries_adds {A C S Str} {EqA : Eqb A} (load : S -> result C) (load_string : Str -> result C) pname (l : list (@yentry A S Str)) :
  forall next s st, foldM (load_entry load load_string pname) l (next, s) = Ok st ->
  exists cs, Forall2 (entry_content load load_string pname) l cs /\ forall reg, crun (adds next cs) (reg, s) = (reg, snd st).
Proof.
  induction l as [|e l IH]; intros next s st E; cbn [foldM] in E.
  - injection E as <-. exists []. split; [constructor|reflexivity].
  - destruct e as [pn ps v|p v]; cbn [load_entry] in E.
    + destruct (eqb_spec pn pname) as [->|]; [|discriminate]. destruct (load v) as [c|] eqn:Ec; [|discriminate]. cbn [bind] in E.
      destruct (IH _ _ _ E) as (cs & Hcs & Hr). exists ((map dec ps, c) :: cs). split; [constructor; [cbn; auto|exact Hcs]|].
      intro reg. unfold crun in *. cbn [adds fold_left cstep]. rewrite add_constraint_reg. apply Hr.
    + destruct (eqb_spec p pname) as [|Hne]; [discriminate|]. destruct (load_string v) as [c|] eqn:Ec; [|discriminate]. cbn [bind] in E.
      destruct (IH _ _ _ E) as (cs & Hcs & Hr). exists (([KStr p], c) :: cs). split; [constructor; [cbn; auto|exact Hcs]|].
      intro reg. unfold crun in *. cbn [adds fold_left cstep]. rewrite add_constraint_reg. apply Hr.
Qed.
Theorem C90_loading_adds_entries_in_order :
  forall (A C S Str : Type) (EqA : Eqb A) (load : S -> result C) (load_string : Str -> result C)
         cl pname instance next (data : @ydata A S Str) (i j : @inst A C) reg ops,
    (match instance with Some i0 => i = i0
     | None => construct cl (match data with YDict (Some a) _ _ => a | _ => [] end) = Ok i end) ->
    i_set i = after reg ops -> NoDup (od_keys (metadata data)) ->
    from_yaml_dict load load_string cl pname instance next data = Ok j ->
    exists cs, Forall2 (entry_content load load_string pname) (entries data) cs /\
      i_class j = i_class i /\
      (forall k, od_get k (i_attrs j) = match od_get k (metadata data) with Some v => Some v | None => od_get k (i_attrs i) end) /\
      forall p, od_get p (pars (i_set j)) = current (rev (ops ++ adds next cs)) p.
Proof.
  intros A C S Str EqA load load_string cl pname instance next data i j reg ops Hi Hs Hnd E. unfold from_yaml_dict in E.
  assert (H : exists i1 st, i_class i1 = i_class i /\ i_set i1 = i_set i /\
    (forall k, od_get k (i_attrs i1) = match od_get k (metadata data) with Some v => Some v | None => od_get k (i_attrs i) end) /\
    foldM (load_entry load load_string pname) (entries data) (next, i_set i1) = Ok st /\ j = mkInst (i_class i1) (i_attrs i1) (snd st)).
  { destruct data as [l|a m l]; cbn [entries].
    - destruct instance as [i0|]; [subst i0; cbn [bind] in E|rewrite Hi in E; cbn [bind] in E].
      all: destruct (foldM _ l (next, i_set i)) as [st|] eqn:Ef; [|discriminate]; cbn [bind] in E; injection E as <-; exists i, st; repeat split; auto.
    - destruct a as [a|]; [|discriminate]. cbn [metadata] in Hnd.
      assert (Hu : forall k, od_get k (od_update (i_attrs i) (match m with Some m => m | None => [] end)) =
        match od_get k (metadata (YDict (Some a) m l)) with Some v => Some v | None => od_get k (i_attrs i) end).
      { intro k. destruct m as [m|]; [|reflexivity]. apply od_update_get. exact Hnd. }
      destruct instance as [i0|]; [subst i0; cbn [bind] in E|rewrite Hi in E; cbn [bind] in E].
      all: destruct (foldM _ l _) as [st|] eqn:Ef; [|discriminate]; cbn [bind] in E; injection E as <-;
        exists (mkInst (i_class i) (od_update (i_attrs i) (match m with Some m => m | None => [] end)) (i_set i)), st; repeat split; auto. }
  destruct H as (i1 & st & Hc & Hset & Ha & Ef & ->). rewrite Hset, Hs in Ef.
  destruct (load_entries_adds load load_string pname _ _ _ _ Ef) as (cs & Hcs & Hr).
  exists cs. split; [exact Hcs|]. split; [exact Hc|]. split; [exact Ha|]. intro p. cbn [i_set].
  destruct (crun ops (reg, empty)) as [reg' s0] eqn:Ec. assert (Eafter : after reg ops = s0) by (unfold after; rewrite Ec; reflexivity).
  rewrite Eafter in Hr. specialize (Hr reg').
  assert (Eall : after reg (ops ++ adds next cs) = snd st). { unfold after, crun in *. rewrite fold_left_app, Ec, Hr. reflexivity. }
  rewrite <- Eall. apply after_get.
Qed.
Print Assumptions C90_loading_adds_entries_in_order.

(** Concrete ingredients for witnesses: contents are numbers, saved as themselves. *)
Definition wser (c : nat) : nat := c.
Definition wload (c : nat) : result nat := Ok c.
Definition wstr (s : string) : result nat := Err ValueError.
Notation wop := (cop (pkey nat) (nat * nat)).
Definition a_ : pkey nat := KStr "a"%string.
Definition b_ : pkey nat := KStr "b"%string.

(** C08 as stated is false: a removed constraint is back after saving and reloading. *)
Theorem C08_roundtrip_after_removal_refuted :
  exists (ops : list wop) i' p,
    bind (get_yaml_dict wser "parameters" (mkInst bare [] (after [] ops)))
      (fun y => from_yaml_dict wload wstr bare "parameters" None 100 y) = Ok i' /\
    current (rev ops) p = None /\ content_at (i_set i') p <> None.
Proof.
  exists [Add false [a_] (0, 7); Remove a_]. eexists. exists a_.
  vm_compute. split; [reflexivity|]. split; [reflexivity|discriminate].
Qed.
Print Assumptions C08_roundtrip_after_removal_refuted.

(** C62 (saved constraint sets can be loaded) is false: an object without constructor
    arguments but with a public attribute saves to a dictionary that cannot be loaded. *)
Theorem C62_saved_object_loads_refuted :
  exists (i : @inst nat nat) y,
    get_yaml_dict (Str:=string) wser "parameters" i = Ok y /\
    from_yaml_dict wload wstr (i_class i) "parameters" None 100 y = Err KeyError.
Proof.
  exists (mkInst bare [("description"%string, "my parameters"%string)] (after [] [Add false [a_] (0, 7)])).
  eexists. vm_compute. split; reflexivity.
Qed.
Print Assumptions C62_saved_object_loads_refuted.

(** C50 (partial): if the modifications of a copy of the defaults are additions whose saved
    form differs from every saved default, the saved difference reproduces everything. *)
Theorem C50_parameter_difference_partial :
  forall (A C S Str : Type) (EqA : Eqb A) (EqC : Eqb C) (ser : C -> S) (load : S -> result C)
         (load_string : Str -> result C) (yeq : @yentry A S Str -> @yentry A S Str -> bool),
    (forall x y, reflect (x = y) (yeq x y)) ->
    forall pname reg (defs mods : list (cop (pkey A) (nat * C))) next,
    (forall cp, In cp (additions mods) -> load (ser (snd (fst cp))) = Ok (snd (fst cp))) ->
    Forall (fun o => is_add o = true) mods ->
    (forall cp, In cp (additions mods) ->
       ~ In (YFull pname (map enc (snd cp)) (ser (snd (fst cp)))) (yaml_list ser (Str:=Str) pname (after reg defs))) ->
    exists s', coerce_par_obj load load_string pname next (after reg defs)
                 (get_par_diff ser yeq pname (after reg defs) (after reg (defs ++ mods))) = Ok s' /\
      forall p, content_at s' p = content_at (after reg (defs ++ mods)) p.
Proof. intros A C S Str EqA EqC. exact (@par_diff_roundtrip A C S Str EqA). Qed.
Print Assumptions C50_parameter_difference_partial.

(** C50 as stated is false: changing a parameter and changing it back reloads as changed. *)
Definition wyeq (x y : @yentry nat nat string) : bool :=
  match x, y with
  | YFull p l v, YFull q m w =>
      eqb p q && eqb v w && eqb (map dec l) (map dec m)
  | YShort p v, YShort q w => eqb p q && eqb v w
  | _, _ => false
  end.
Lemma wyeq_spec x y : reflect (x = y) (wyeq x y).
Proof.
  destruct x as [p l v|p v], y as [q m w|q w]; cbn; try (constructor; congruence).
  - destruct (eqb_spec p q) as [->|]; cbn; [|constructor; congruence].
    destruct (eqb_spec v w) as [->|]; cbn; [|constructor; congruence].
    destruct (eqb_spec (map dec l) (map dec m)) as [E|Ne]; constructor; [|congruence].
    assert (Hinj : forall u u' : list (ykey nat), map dec u = map dec u' -> u = u').
    { induction u as [|h u IH]; intros [|h' u']; cbn; try discriminate; [reflexivity|].
      intros [= Hh Hu]. f_equal; [|auto]. destruct h, h'; cbn in Hh; congruence. }
    rewrite (Hinj _ _ E). reflexivity.
  - destruct (eqb_spec p q) as [->|]; cbn; [|constructor; congruence].
    destruct (eqb_spec v w) as [->|]; constructor; congruence.
Qed.
Theorem C50_change_and_change_back_refuted :
  exists (defs mods : list wop) s' p,
    Forall (fun o => is_add o = true) mods /\
    coerce_par_obj wload wstr "parameters" 100 (after [] defs)
      (get_par_diff wser wyeq "parameters" (after [] defs) (after [] (defs ++ mods))) = Ok s' /\
    content_at s' p <> content_at (after [] (defs ++ mods)) p.
Proof.
  exists [Add false [a_] (0, 7)], [Add false [a_] (1, 8); Add false [a_] (2, 7)]. eexists. exists a_.
  split; [repeat constructor|]. vm_compute. split; [reflexivity|discriminate].
Qed.
Print Assumptions C50_change_and_change_back_refuted.

(** C09 *)
Theorem C09_set_constraint_all_or_nothing :
  forall (P D Str Dic : Type) (EqP : Eqb P) (EqD : Eqb D) (parse : Str -> result (list D))
         (d2d : Dic -> result (list D)) (convolve : list D -> result D) (p : P) x y reg ops,
    match set_constraint parse d2d convolve p x y (after reg ops) with
    | (s', Ok tt) =>
        (exists l d, (match x, y with Some a, None => parse a | None, Some b => d2d b | _, _ => Err TypeError end) = Ok l /\
                     convolve l = Ok d /\ od_get p (pars s') = Some (0, d)) /\
        (forall q, q <> p -> od_get q (pars s') = current (rev ops) q)
    | (s', Err e) => s' = after reg ops
    end.
Proof. intros P D Str Dic EqP EqD. exact (@set_constraint_effect P D Str Dic EqP). Qed.
Print Assumptions C09_set_constraint_all_or_nothing.
Theorem C09_both_or_neither_rejected :
  forall (P D Str Dic : Type) (EqP : Eqb P) (EqD : Eqb D) (parse : Str -> result (list D))
         (d2d : Dic -> result (list D)) (convolve : list D -> result D) (p : P) (s : cset P D) x y,
    set_constraint parse d2d convolve p (Some x) (Some y) s = (s, Err ValueError) /\
    set_constraint parse d2d convolve p None None s = (s, Err TypeError).
Proof. intros P D Str Dic EqP EqD. exact (@set_constraint_errors P D Str Dic EqP). Qed.
Print Assumptions C09_both_or_neither_rejected.

(** C59 (every constraint contributes, also if one distribution object is used for several
    parameters) is false: two parameters constrained by the same object contribute once. *)
Definition wlp (delta : bool) (d : nat * nat) (x : larg nat) : larg nat := x.
Theorem C59_shared_distribution_object_refuted :
  exists (ops : list wop) d r,
    current (rev ops) a_ <> None /\ current (rev ops) b_ <> None /\
    get_logprobability_all wlp d [] false (after [] ops) = Ok r /\ length r = 1.
Proof.
  exists [Add false [a_] (0, 7); Add false [b_] (0, 7)], [(a_, 1); (b_, 2)]. eexists.
  vm_compute. repeat split; discriminate.
Qed.
Print Assumptions C59_shared_distribution_object_refuted.

(** C60 (a constrained parameter always contributes) is false if a name is listed twice in
    one addition: the constraint is in force but silently contributes nothing. *)
Theorem C60_duplicate_name_refuted :
  exists (ops : list wop) d,
    current (rev ops) a_ <> None /\
    get_logprobability_all wlp d [] false (after [] ops) = Ok [].
Proof.
  exists [Add false [a_; a_] (0, 7)], [(a_, 1)]. vm_compute. split; [discriminate|reflexivity].
Qed.
Print Assumptions C60_duplicate_name_refuted.

(** ** Non-vacuity *)
Definition demo : list wop :=
  [Add false [a_; b_; KTup [1; 2]] (0, 5); Add true [b_] (1, 6); Remove a_; Add false [KStr "c"%string; a_] (2, 8)].
Example demo_ordinary : ordinary demo.
Proof. apply ordinaryb_ordinary. reflexivity. Qed.
Example demo_values :
  get_logprobability_all wlp [(a_, 1); (b_, 2); (KTup [1; 2], 3); (KStr "c"%string, 4)] [KStr "c"%string] false (after [] demo)
  = Ok [((0, 5), Vec [3] (Some [0; 1])); ((1, 6), Scalar 2); ((2, 8), Vec [1] (Some [0]))].
Proof. reflexivity. Qed.
Definition demo_cv (d : nat * nat) : arr nat :=
  match fst d with 0 => A1 [10; 11; 12] | 1 => A0 20 | _ => A1 [30; 31] end.
Example demo_fits : Forall (fun cp => fits (length (snd cp)) (demo_cv (fst cp))) (additions demo) /\
  get_central_all (fun _ => true) demo_cv (after [] demo)
   = Ok [(KTup [1; 2], 12); (b_, 20); (KStr "c"%string, 30); (a_, 31)].
Proof. split; [repeat constructor|reflexivity]. Qed.
Example demo_random :
  (forall k c ps, In (c, ps) (additions demo) -> sample_fits None (length ps) ((fun (_ : nat) => demo_cv) k c)).
Proof. cbn. intros k c ps [[= <- <-]|[[= <- <-]|[[= <- <-]|[]]]]; reflexivity. Qed.
Example demo_measurement :
  let cl := mkClass ["name"%string] [("description"%string, ""%string); ("url"%string, ""%string)] in
  c_args cl <> [] /\ Forall (fun kv => snd kv = ""%string) (c_defaults cl).
Proof. split; [discriminate|repeat constructor]. Qed.

(** Non-vacuity of C90: a file with a full and a short entry loaded into an object that has a constraint. *)
Example C90_instance :
  let i := mkInst bare [] (after [] [Add false [a_; b_] (0, 7)]) in
  exists j, from_yaml_dict wload (fun s : string => Ok 5) bare "parameters" (Some i) 100
     (YPlain [YFull "parameters" [YStr "c"%string; YList [1; 2]] 8; YShort "b" "1.0"%string]) = Ok j /\
   content_at (i_set j) a_ = Some (0, 7) /\ content_at (i_set j) b_ = Some (0, 5) /\ content_at (i_set j) (KTup [1; 2]) = Some (1, 8).
Proof. vm_compute. eexists. repeat split; reflexivity. Qed.
