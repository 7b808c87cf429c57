(** * Properties C32-C36, C73-C75 *)
From Verif Require Import Base BaseLemmas Observables_Model Constraints_Model Constraints_Spec Likelihood_Model Likelihood_Spec
  Functions_Model Functions_Spec Functions_Proofs Functions_Proofs2.

(** ** C32: for a prediction that reads parameters by indexing, the reported parameters are
    sound: at any parameter point that agrees with the central values on the reported
    parameters (and on dictionary entries that are no parameters) the prediction has the same
    value. *)
Theorem C32_reported_dependence_sound {V R} (params : list string) (central : od string V) (p : prog V R) deps :
  indexing_only [false] p ->
  get_dependent_parameters_sm params central p = Ok deps ->
  (exists r, forall par, (forall k, In k deps \/ ~ In k params -> od_get k par = od_get k central) ->
     run_plain [par] p = Ok r) /\
  (forall k, In k deps -> In k params).
Proof. apply dependent_sound. Qed.
Print Assumptions C32_reported_dependence_sound.

(** non-trivial instance: copies the dictionary, changes the copy, reads from both *)
Definition ex_prog : prog nat nat :=
  CopyDict 0 (GetItem 0 "m_b"%string (fun m => SetItem 1 "m_b"%string (m + 1) (GetItem 1 "m_b"%string (fun m' =>
    if 3 <? m' then GetItem 1 "tau"%string (fun t => Ret (m + m' + t)) else Ret 0)))).
Example C32_instance : indexing_only [false] ex_prog /\
  get_dependent_parameters_sm ["m_b"%string; "tau"%string; "m_t"%string]
    [("m_b"%string, 4); ("tau"%string, 2); ("m_t"%string, 170)] ex_prog = Ok ["m_b"%string; "m_b"%string; "tau"%string].
Proof.
  split; [|reflexivity]. split; [reflexivity|]. intros v v'. cbv beta. destruct (3 <? v'); [intro; exact I|exact I].
Qed.

(** ** C73 (fails): parameters read in other ways are not reported, or read wrongly.
    [par.get(key, default)] (used e.g. in physics/bdecays/formfactors/b_p/bcl.py 45) and
    [par.items()] (used by conjugate_par, physics/common.py 12) are not tracked; copying a
    changed AwareDict forgets the change, so that the tracked evaluation differs from the
    prediction. *)
Theorem C73_all_reads_reported_refuted :
  (exists (p : prog nat nat) central par, get_dependent_parameters_sm ["a"%string] central p = Ok [] /\
      (forall k, k <> "a"%string -> od_get k par = od_get k central) /\
      run_plain [par] p <> run_plain [central] p) /\
  (exists (p : prog nat nat) central par, (forall h k d next, p <> GetDefault h k d next) /\
      get_dependent_parameters_sm ["a"%string] central p = Ok [] /\
      (forall k, k <> "a"%string -> od_get k par = od_get k central) /\
      run_plain [par] p <> run_plain [central] p) /\
  (exists (p : prog nat nat) central, fst (run_aware [Aware central central] [] p) <> run_plain [central] p).
Proof.
  split; [|split].
  - exists (GetDefault 0 "a"%string 1 (fun v => Ret v)), [("a"%string, 2)], [("a"%string, 3)].
    split; [reflexivity|split; [|discriminate]].
    intros k Hk. cbn. apply neq_eqb in Hk. rewrite Hk. reflexivity.
  - exists (MapItems 0 (fun _ v => v + 1) (GetItem 1 "a"%string (fun v => Ret v))), [("a"%string, 2)], [("a"%string, 3)].
    split; [discriminate|]. split; [reflexivity|split; [|discriminate]].
    intros k Hk. cbn. apply neq_eqb in Hk. rewrite Hk. reflexivity.
  - exists (SetItem 0 "a"%string 5 (CopyDict 0 (GetItem 1 "a"%string (fun v => Ret v)))), [("a"%string, 2)]. discriminate.
Qed.
Print Assumptions C73_all_reads_reported_refuted.

(** ** C33: the error budget.  The result has one entry per group; the groups partition the
    dependent parameters; two dependent parameters are in one group iff they have the same
    constraint; the entry of a group is computed from predictions at points at which exactly the
    group's parameters take the values of one random draw, all others their central values. *)
Theorem C33_error_budget {V D} `{Eqb D} (predict : od string V -> result V) (relative_error : list V -> V -> V)
    (pars : od string (nat * D)) central random dep b :
  NoDup dep -> sm_error_budget predict relative_error pars central random dep = Ok b ->
  exists groups, Permutation (concat groups) dep /\ (forall g, In g groups -> g <> []) /\
    Forall2 reported_as (od_keys b) groups /\
    (forall g p q, In g groups -> In p g -> In q dep ->
       (In q g <-> exists i j c, od_get p pars = Some (i, c) /\ od_get q pars = Some (j, c))) /\
    exists pc, predict central = Ok pc /\
      Forall2 (fun v g => exists points preds, Forall2 (varied central g) random points /\
                 Forall2 (fun par x => predict par = Ok x) points preds /\ v = relative_error preds pc)
        (od_vals b) groups.
Proof. intros. eapply error_budget_spec; eassumption. Qed.
Print Assumptions C33_error_budget.
(** the budget is computed whenever all predictions succeed and all dependent parameters are
    constrained; a dependent parameter without constraint is a KeyError. *)
Theorem C33_error_budget_total {V D} `{Eqb D} (predict : od string V -> result V) (relative_error : list V -> V -> V)
    (pars : od string (nat * D)) central random dep :
  (forall par, exists v, predict par = Ok v) ->
  (forall p pr, In p dep -> In pr random -> od_get p pr <> None) ->
  ((forall p, In p dep -> od_get p pars <> None) ->
     exists b, sm_error_budget predict relative_error pars central random dep = Ok b) /\
  ((exists p, In p dep /\ od_get p pars = None) ->
     sm_error_budget predict relative_error pars central random dep = Err KeyError).
Proof.
  intros Hp Hr. split.
  - intro Hd. apply error_budget_total; assumption.
  - intros (p & Hin & Hn). destruct (Hp central) as [pc E]. eapply error_budget_keyerror; eassumption.
Qed.
Print Assumptions C33_error_budget_total.

Example C33_instance :
  sm_error_budget (fun d => Ok (length d)) (fun l c => length l + c)
    [("a"%string, (0, 7)); ("b"%string, (1, 7)); ("c"%string, (0, 8))]
    [("a"%string, 1); ("b"%string, 2); ("c"%string, 3)]
    [[("a"%string, 4); ("b"%string, 5); ("c"%string, 6)]] ["a"%string; "c"%string; "b"%string]
  = Ok [(Many ["a"%string; "b"%string], 4); (One "c"%string, 4)] /\ NoDup ["a"%string; "c"%string; "b"%string].
Proof. split; [reflexivity|]. apply (Constraints_Proofs.nodupb_NoDup ["a"%string; "c"%string; "b"%string]). reflexivity. Qed.

(** ** C34: the parameter points of sm_covariance, and their evaluation. *)
Theorem C34_points_list {V} N (l : list string) (random : od string (list V)) (central : od string V) :
  NoDup (od_keys random) -> (forall k v, In (k, v) random -> length v = N) ->
  exists pts, cov_points N (PVlist l) random central = Ok pts /\ length pts = N /\
    forall i s, nth_error pts i = Some s -> forall k,
      (In k l -> od_get k s = match od_get k random with Some v => nth_error v i | None => None end) /\
      (~ In k l -> od_get k s = od_get k central).
Proof. apply cov_points_list. Qed.
Theorem C34_points_all {V} N (random : od string (list V)) (central : od string V) :
  (forall k v, In (k, v) random -> length v = N) ->
  exists pts, cov_points N (PVstr "all") random central = Ok pts /\ length pts = N /\
    forall i s, nth_error pts i = Some s -> forall k,
      od_get k s = match od_get k random with Some v => nth_error v i | None => None end.
Proof. apply cov_points_all. Qed.
(** With observables given in the documented forms, the i-th row holds the predictions of all
    observables, in the order of the list, at the i-th point; evaluation in a pool gives the same
    rows in the same order whatever the order in which its tasks finish. *)
Theorem C34_serial_parallel {V A} registry (predict : string -> od string V -> od string (pyval A) -> result V)
    points obs_list nks sched :
  Forall2 (means registry) obs_list nks -> Permutation sched (seq 0 (length points)) ->
  serial_predictions registry predict points obs_list =
    mapM (fun par => mapM (fun nk => predict (fst nk) par (snd nk)) nks) points /\
  forall rows,
    pool_map (fun par => fst (prediction_array registry predict par obs_list)) points sched = Ok rows <->
    serial_predictions registry predict points obs_list = Ok rows.
Proof.
  intros Hm Hp. split; [apply covariance_rows, Hm|]. intro rows. rewrite pool_map_spec by exact Hp.
  rewrite serial_documented; [reflexivity|]. clear -Hm. induction Hm; constructor; auto. eapply means_documented; eassumption.
Qed.
Print Assumptions C34_points_list. Print Assumptions C34_points_all. Print Assumptions C34_serial_parallel.

Example C34_instance :
  cov_points 2 (PVlist ["a"%string; "misspelt"%string]) [("a"%string, [10; 11]); ("b"%string, [20; 21])] [("a"%string, 1); ("b"%string, 2)]
    = Ok [[("b"%string, 2); ("a"%string, 10)]; [("b"%string, 2); ("a"%string, 11)]] /\
  Forall2 (means [("BR"%string, None); ("dBR"%string, Some ["q2min"%string; "q2max"%string])])
    [IStr "BR"%string; ISeq [VStr "dBR"%string; VNum 1; VNum 6]]
    [("BR"%string, []); ("dBR"%string, [("q2min"%string, VNum 1); ("q2max"%string, VNum 6)])] /\
  pool_map (fun x : nat => Ok (x * x)) [3; 4; 5] [2; 0; 1] = Ok [9; 16; 25].
Proof.
  split; [reflexivity|]. split; [|reflexivity]. constructor; [left; auto|]. constructor; [|constructor].
  right. exists ["q2min"%string; "q2max"%string], [VNum 1; VNum 6]. repeat split; auto.
  - apply (Constraints_Proofs.nodupb_NoDup ["q2min"%string; "q2max"%string]). reflexivity.
  - intros [E|[E|[]]]; discriminate.
Qed.

(** ** C75 (fails): an observable given as a dictionary, a form accepted everywhere else, is
    consumed by the first sample: the caller's dictionary loses its 'name' and the second sample
    raises KeyError. *)
Theorem C75_dict_observables_refuted : exists registry (predict : string -> od string nat -> od string (pyval nat) -> result nat) d points,
  (forall n par kw, exists v, predict n par kw = Ok v) /\
  argument_format registry (IDict d) FTuple = Ok (OStr "BR"%string) /\
  snd (prediction_array registry predict [] [IDict d]) <> [IDict d] /\
  serial_predictions registry predict points [IDict d] = Err KeyError.
Proof.
  exists [("BR"%string, None)], (fun _ _ _ => Ok 0), [("name"%string, VStr "BR"%string)], [[]; []].
  split; [eauto|]. split; [reflexivity|]. split; [discriminate|reflexivity].
Qed.
Print Assumptions C75_dict_observables_refuted.

(** ** C35: combining the measurements of one observable, for any histories of the registered
    measurements. [sel] selects exactly the usable ones. *)
Theorem C35_combine_measurements {A D} `{Eqb A} `{Eqb D} arguments (dim : D -> option nat) reduce_dimension combine_distributions
    (reg : od string (list (cop (string + list (pyval A)) D))) o include :
  exists (sel : string * list (cop (string + list (pyval A)) D) -> bool) ds,
    (forall nh, sel nh = true <-> usable o include nh) /\
    Forall2 (fun nh d => exists i c, current (rev (snd nh)) o = Some (i, c) /\
               one_dimensional dim reduce_dimension c i d) (filter sel reg) ds /\
    let result := combine_measurements arguments dim reduce_dimension combine_distributions (built reg) o include [] in
    (ds = [] -> result = Err ValueError) /\
    (forall d, ds = [d] -> exists warn, result = Ok (d, warn)) /\
    (2 <= length ds -> forall d, (exists warn, result = Ok (d, warn)) <-> combine_distributions ds = Ok d) /\
    (forall d warn, result = Ok (d, warn) ->
       (warn = true <-> exists nh1 nh2 l1 l2 l3, filter sel reg = l1 ++ nh1 :: l2 ++ nh2 :: l3 /\
          forall nh, nh = nh1 \/ nh = nh2 -> exists i c, current (rev (snd nh)) o = Some (i, c) /\ dim c <> None)).
Proof.
  destruct (combine_spec arguments dim reduce_dimension combine_distributions o include reg) as (ds & Hf & E).
  exists (useb o include), ds. split; [intro; apply useb_spec|]. split; [exact Hf|].
  cbv zeta in *. rewrite E. set (multi := fun nh : string * list (cop (string + list (pyval A)) D) => match current (rev (snd nh)) o with
                                           | Some (_, c) => match dim c with Some _ => true | None => false end
                                           | None => false end) in *. clear E Hf.
  split; [|split; [|split]].
  - intros ->. reflexivity.
  - intros d ->. eauto.
  - destruct ds as [|d1 [|d2 ds]]; cbn [length]; try lia. intros _ d.
    destruct (combine_distributions (d1 :: d2 :: ds)) as [d'|e]; cbn [bind].
    + split; [intros (w & E); congruence|intro E; injection E as ->; eauto].
    + split; [intros (w & E); discriminate|discriminate].
  - intros d warn Hr.
    assert (warn = (1 <? length (filter multi (filter (useb o include) reg)))) as ->.
    { destruct ds as [|d1 [|d2 ds]]; [discriminate|congruence|].
      destruct (combine_distributions (d1 :: d2 :: ds)); cbn [bind] in Hr; congruence. }
    assert (Hm : forall nh, multi nh = true <-> exists i c, current (rev (snd nh)) o = Some (i, c) /\ dim c <> None).
    { intro nh. unfold multi. destruct (current (rev (snd nh)) o) as [[i c]|].
      - destruct (dim c) eqn:Ed; split; try discriminate; eauto 6.
        + intros _. exists i, c. split; [reflexivity|congruence].
        + intros (i' & c' & E & Hd). injection E as <- <-. congruence.
      - split; [discriminate|]. intros (i' & c' & E & _). discriminate. }
    generalize (filter (useb o include) reg) as l. intro l. rewrite Nat.ltb_lt. split.
    + intro Hlt. clear -Hlt Hm. assert (Hex : forall l, 1 <= length (filter multi l) -> exists l1 x l2, l = l1 ++ x :: l2 /\ multi x = true /\ length (filter multi l) = S (length (filter multi l2))).
      { induction l0 as [|x l0 IH]; cbn [filter length]; [lia|]. destruct (multi x) eqn:Ex.
        - intros _. exists [], x, l0. repeat split; auto.
        - intro Hl. destruct (IH Hl) as (l1 & y & l2 & -> & Hy & Hn). exists (x :: l1), y, l2. repeat split; auto. }
      destruct (Hex l) as (l1 & x & l2 & -> & Hx & Hn); [lia|]. destruct (Hex l2) as (l3 & y & l4 & -> & Hy & _); [lia|].
      exists x, y, l1, l3, l4. split; [reflexivity|]. intros nh [->| ->]; apply Hm; assumption.
    + intros (x & y & l1 & l2 & l3 & -> & Hxy).
      assert (Hx : multi x = true) by (apply Hm, Hxy; auto). assert (Hy : multi y = true) by (apply Hm, Hxy; auto).
      assert (Hfa : forall l l', filter multi (l ++ l') = filter multi l ++ filter multi l') by (intros; apply filter_app).
      rewrite Hfa. cbn [filter]. rewrite Hx. rewrite Hfa. cbn [filter]. rewrite Hy. rewrite !app_length. cbn. rewrite app_length. cbn. lia.
Qed.
Print Assumptions C35_combine_measurements.
(** Keyword arguments name the observable's arguments: the call is the one for the tuple of the
    name and the values in the order of the observable's argument list. *)
Theorem C35_keyword_arguments {A D} `{Eqb A} `{Eqb D} arguments (dim : D -> option nat) reduce_dimension combine_distributions
    (reg : od string (cset (string + list (pyval A)) D)) name include kwargs args vals :
  kwargs <> [] -> arguments name = Ok (Some args) ->
  Forall2 (fun a v => od_get a kwargs = Some v) args vals ->
  combine_measurements arguments dim reduce_dimension combine_distributions reg (inl name) include kwargs =
  combine_measurements arguments dim reduce_dimension combine_distributions reg (inr (VStr name :: vals)) include [].
Proof. intros Hk Ha Hv. exact (combine_kwargs arguments dim reduce_dimension combine_distributions reg name include kwargs args vals Hk Ha Hv). Qed.
Print Assumptions C35_keyword_arguments.

Example C35_instance :
  let reg : od string (list (cop (string + list (pyval nat)) nat)) :=
    [("LHCb"%string, [Add false [inl "BR1"%string; inl "BR2"%string] 1]);
     ("Pseudo-measurement x"%string, [Add false [inl "BR2"%string] 2]);
     ("Belle"%string, [Add false [inl "BR2"%string] 3]);
     ("old"%string, [Add false [inl "BR2"%string] 4; Remove (inl "BR2"%string)])] in
  combine_measurements (fun _ => Ok None) (fun d => if d =? 1 then Some 2 else None) (fun d ex => 100 * d + length ex + 10 * hd 5 ex)
    (fun l => Ok (fold_right Nat.add 0 l)) (built reg) (inl "BR2"%string) None [] = Ok (104, false).
Proof. reflexivity. Qed.

(** ** C36: serial and parallel uncertainties evaluate the observable at the same points with the
    same values of its arguments, if no argument is given twice. *)
Theorem C36_same_calls {V X} (params : list string) (f : od string V -> list X -> result V) points sched args kwargs :
  NoDup params -> points <> [] ->
  (forall i a, nth_error params i = Some a -> i < length args -> ~ In a (od_keys kwargs)) ->
  Permutation sched (seq 0 (length points)) ->
  forall vs, parallel params f (Some params) points sched args kwargs = Ok vs <->
             serial params f points args kwargs = Ok vs.
Proof. apply parallel_serial. Qed.
Print Assumptions C36_same_calls.
Example C36_instance :
  parallel ["q2min"%string; "q2max"%string] (fun par l => Ok (length par + fold_left (fun a b => 10 * a + b) l 0))
    (Some ["q2min"%string; "q2max"%string]) [[]; [("m"%string, 0)]] [1; 0] [1] [("q2max"%string, 6)] = Ok [16; 17] /\
  serial ["q2min"%string; "q2max"%string] (fun par l => Ok (length par + fold_left (fun a b => 10 * a + b) l 0))
    [[]; [("m"%string, 0)]] [1] [("q2max"%string, 6)] = Ok [16; 17].
Proof. split; reflexivity. Qed.

(** ** C74 (fails): an argument given both by position and by name is rejected with one thread,
    but silently resolved in favour of the positional value with several. *)
Theorem C74_conflicting_arguments_refuted :
  exists (params : list string) (f : od string nat -> list nat -> result nat) args kwargs v,
    NoDup params /\ serial params f [[]] args kwargs = Err TypeError /\
    parallel params f (Some params) [[]] [0] args kwargs = Ok [v].
Proof.
  exists ["q2"%string], (fun _ l => Ok (hd 0 l)), [1], [("q2"%string, 2)], 1.
  split; [repeat constructor; intros []|]. split; reflexivity.
Qed.
Print Assumptions C74_conflicting_arguments_refuted.
