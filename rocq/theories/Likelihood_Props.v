(** * Properties C17-C21, C67-C70: likelihoods *)
From Coq Require Import Permutation.
From Verif Require Import Base Constraints_Model Constraints_Spec Constraints_Proofs Observables_Model
  Likelihood_Model Likelihood_Spec Likelihood_Proofs.

(** C17: the measurements used are exactly the registered ones that take part, each once,
    whatever order Python's sets iterate in (options: at most one of the two lists given). *)
Theorem C17_selected_measurements :
  forall (P D : Type) (EqP : Eqb P) (EqD : Eqb D) (shuffle : list string -> list string),
    (forall l, Permutation (shuffle l) l) ->
    forall (m : ml P) (reg : od string (list (cop P D))), NoDup (od_keys reg) ->
    exclude_measurements m = None \/ include_measurements m = None ->
    NoDup (get_measurements shuffle m (built reg)) /\
    forall n, In n (get_measurements shuffle m (built reg)) <-> exists h, In (n, h) reg /\ takes_part m n h.
Proof.
  intros P D EqP EqD shuffle Hsh m reg Hnd Hone. split.
  - exact (get_measurements_NoDup shuffle Hsh m reg Hnd).
  - intro n. exact (get_measurements_In shuffle Hsh m reg n Hone).
Qed.
Print Assumptions C17_selected_measurements.

(** C17: without either list, in order of registration. *)
Theorem C17_registration_order :
  forall (P D : Type) (EqP : Eqb P) (EqD : Eqb D) (shuffle : list string -> list string)
         (m : ml P) (reg : od string (list (cop P D))),
    exclude_measurements m = None -> include_measurements m = None ->
    exists part, get_measurements shuffle m (built reg) = map fst (filter part reg) /\
      forall n h, part (n, h) = true <-> takes_part m n h.
Proof.
  intros P D EqP EqD shuffle m reg H1 H2. exists (parts m). split.
  - exact (get_measurements_order shuffle m reg H1 H2).
  - intros n h. apply parts_spec. left. exact H1.
Qed.
Print Assumptions C17_registration_order.

(** C17: construction succeeds iff every observable is constrained by a selected
    measurement; otherwise AssertionError. *)
Theorem C17_constructor_check :
  forall (P D : Type) (EqP : Eqb P) (EqD : Eqb D) (shuffle : list string -> list string),
    (forall l, Permutation (shuffle l) l) ->
    forall (m : ml P) (reg : od string (list (cop P D))), NoDup (od_keys reg) ->
    exclude_measurements m = None \/ include_measurements m = None ->
    (new_ml shuffle m (built reg) = Ok m <->
     forall o, In o (observables m) -> exists n h, In (n, h) reg /\ takes_part m n h /\ current (rev h) o <> None) /\
    (new_ml shuffle m (built reg) = Ok m \/ new_ml shuffle m (built reg) = Err AssertionError).
Proof. intros P D EqP EqD shuffle Hsh. exact (new_ml_spec shuffle Hsh). Qed.
Print Assumptions C17_constructor_check.

(** C67 (an include list is honoured) is false if an empty exclude list is given as well:
    accepted by the constructor, but the include list is ignored. *)
Theorem C67_include_list_refuted :
  exists (m : ml string) (reg : od string (list (cop string nat))) inc n,
    include_measurements m = Some inc /\ ~ In n inc /\ new_ml (fun l => l) m (built reg) = Ok m /\
    In n (get_measurements (fun l => l) m (built reg)).
Proof.
  exists (mkML ["o"%string] (Some []) (Some ["LHCb"%string]) false).
  exists [("CMS"%string, [Add false ["o"%string] 0]); ("LHCb"%string, [Add false ["o"%string] 1])].
  exists ["LHCb"%string], "CMS"%string. vm_compute. repeat split; [|left; reflexivity].
  intros [H|[]]; discriminate.
Qed.
Print Assumptions C67_include_list_refuted.

(** C18: the log-likelihood is the sum over the selected measurements of the terms of their
    constraints at the wanted predictions. *)
Theorem C18_log_likelihood_is_sum :
  forall (P D V L : Type) (EqP : Eqb P) (EqD : Eqb D) (lp : bool -> D -> larg V -> L)
         (zero : L) (add : L -> L -> L) (shuffle : list string -> list string),
    (forall l, Permutation (shuffle l) l) -> comm_monoid zero add ->
    forall (m : ml P) (reg : od string (list (cop P D))) pred (val : P -> V) excl delta,
    NoDup (od_keys reg) -> exclude_measurements m = None \/ include_measurements m = None ->
    (forall n h, In (n, h) reg -> takes_part m n h -> ordinary h /\
       forall p, wanted m excl p = true -> current (rev h) p <> None -> od_get p pred = Some (val p)) ->
    exists part, (forall n h, part (n, h) = true <-> takes_part m n h) /\
      log_likelihood_pred lp zero add shuffle m (built reg) pred excl delta
      = Ok (lsum zero add (flat_map (fun nh => measurement_terms lp delta val (wanted m excl) (snd nh))
                             (filter part reg))).
Proof.
  intros P D V L EqP EqD lp zero add shuffle Hsh HM m reg pred val excl delta Hnd Hone Hh.
  exists (parts m). split.
  - intros n h. apply parts_spec. exact Hone.
  - exact (log_likelihood_spec lp zero add shuffle Hsh HM m reg pred val excl delta Hnd Hone Hh).
Qed.
Print Assumptions C18_log_likelihood_is_sum.

(** C18: predictions of observables that are not wanted or not constrained do not matter. *)
Theorem C18_only_wanted_predictions_matter :
  forall (P D V L : Type) (EqP : Eqb P) (EqD : Eqb D) (lp : bool -> D -> larg V -> L)
         delta (val val' : P -> V) want (h : list (cop P D)),
    (forall p, want p = true -> current (rev h) p <> None -> val p = val' p) ->
    measurement_terms lp delta val want h = measurement_terms lp delta val' want h.
Proof. intros P D V L EqP EqD. exact (@terms_local P D V L EqP EqD). Qed.
Print Assumptions C18_only_wanted_predictions_matter.

(** C18: a missing prediction of a wanted, measured observable raises KeyError. *)
Theorem C18_missing_prediction_raises :
  forall (P D V L : Type) (EqP : Eqb P) (EqD : Eqb D) (lp : bool -> D -> larg V -> L)
         (zero : L) (add : L -> L -> L) (shuffle : list string -> list string),
    (forall l, Permutation (shuffle l) l) ->
    forall (m : ml P) (reg : od string (list (cop P D))) pred excl delta n h p,
    NoDup (od_keys reg) -> exclude_measurements m = None \/ include_measurements m = None ->
    (forall n h, In (n, h) reg -> takes_part m n h -> ordinary h) ->
    In (n, h) reg -> takes_part m n h -> wanted m excl p = true -> current (rev h) p <> None ->
    od_get p pred = None ->
    log_likelihood_pred lp zero add shuffle m (built reg) pred excl delta = Err KeyError.
Proof. intros P D V L EqP EqD lp zero add shuffle Hsh. exact (log_likelihood_missing lp zero add shuffle Hsh). Qed.
Print Assumptions C18_missing_prediction_raises.

(** C19: the number of observations is the number of distinct (measurement, observable) pairs
    with a selected measurement currently constraining a wanted observable. *)
Theorem C19_number_of_observations :
  forall (P D : Type) (EqP : Eqb P) (EqD : Eqb D) (shuffle : list string -> list string),
    (forall l, Permutation (shuffle l) l) ->
    forall (m : ml P) (reg : od string (list (cop P D))) excl,
    NoDup (od_keys reg) -> exclude_measurements m = None \/ include_measurements m = None ->
    exists part, (forall n h, part (n, h) = true <-> takes_part m n h) /\
      get_number_observations shuffle m (built reg) excl = Ok (length (observations m excl part reg)).
Proof.
  intros P D EqP EqD shuffle Hsh m reg excl Hnd Hone. exists (parts m). split.
  - intros n h. apply parts_spec. exact Hone.
  - exact (number_spec shuffle Hsh m reg excl Hnd Hone).
Qed.
Print Assumptions C19_number_of_observations.
Theorem C19_observations_are_distinct_pairs :
  forall (P D : Type) (EqP : Eqb P) (EqD : Eqb D) (m : ml P) excl part (reg : od string (list (cop P D))),
    NoDup (od_keys reg) ->
    NoDup (observations m excl part reg) /\
    forall n o, In (n, o) (observations m excl part reg) <->
      exists h, In (n, h) reg /\ part (n, h) = true /\ In o (observables m) /\ ~ In o excl /\ current (rev h) o <> None.
Proof. intros P D EqP EqD. exact (@observations_spec P D EqP). Qed.
Print Assumptions C19_observations_are_distinct_pairs.

(** C20 (partial): whatever calls were made before, the returned predictions are those of
    this call, provided no earlier call with different predictions had the same hash. *)
Theorem C20_cached_predictions_partial :
  forall (Arg Pred W : Type) (hash : Arg -> Z) (compute : W -> Arg -> result Pred) calls w a,
    (forall w' a', In (w', a') calls -> hash a' = hash a -> compute w' a' = compute w a) ->
    snd (get_predictions hash compute w a (cache_run hash compute calls cache0)) = compute w a.
Proof. intros Arg Pred W. exact (@cache_transparent Arg Pred W). Qed.
Print Assumptions C20_cached_predictions_partial.

(** C20 as stated is false: CPython hashes -1 and -2 alike, however the hashes of the items
    are combined, so a parameter changing from -1 to -2 returns the predictions for -1. *)
Theorem C20_hash_collision_refuted :
  forall (key_hash : string -> Z) (comb : list (Z * Z) -> Z),
  exists (compute : unit -> od string Z -> result Z) (a a' : od string Z),
    compute tt a <> compute tt a' /\
    let hash := py_hash_items key_hash comb in
    snd (get_predictions hash compute tt a' (cache_run hash compute [(tt, a)] cache0)) <> compute tt a'.
Proof.
  intros key_hash comb.
  exists (fun _ par => match od_get "x"%string par with Some v => Ok v | None => Err KeyError end),
         [("x"%string, (-1)%Z)], [("x"%string, (-2)%Z)].
  split; [vm_compute; discriminate|]. cbn zeta. unfold cache_run, get_predictions, py_hash_items.
  cbn -[Z.eqb py_hash_number]. change (py_hash_number (-2)) with (py_hash_number (-1)).
  change (eqb "x"%string "x"%string) with true. cbn -[Z.eqb py_hash_number]. rewrite Z.eqb_refl. discriminate.
Qed.
Print Assumptions C20_hash_collision_refuted.

(** C68 (predictions follow changes of the registered predictions and configured
    implementations) is false for any hash: the cache ignores everything but the arguments. *)
Theorem C68_cache_ignores_configuration_refuted :
  forall (hash : Z -> Z),
  exists (compute : bool -> Z -> result Z) a,
    compute false a <> compute true a /\
    snd (get_predictions hash compute true a (cache_run hash compute [(false, a)] cache0)) = compute false a.
Proof.
  intro hash. exists (fun (w : bool) (a : Z) => Ok (if w then (a + 1)%Z else a)), 5%Z. split; [discriminate|].
  unfold cache_run, get_predictions. cbn. rewrite Z.eqb_refl. reflexivity.
Qed.
Print Assumptions C68_cache_ignores_configuration_refuted.

(** C21: the parameter likelihood is the sum of the terms of the listed parameters. *)
Theorem C21_parameter_likelihood_is_sum :
  forall (P D V L : Type) (EqP : Eqb P) (EqD : Eqb D) (lp : bool -> D -> larg V -> L)
         (zero : L) (add : L -> L -> L) (h : list (cop P D)) (ps : list P) par (val : P -> V) delta,
    ordinary h ->
    (forall p, In p ps -> current (rev h) p <> None -> od_get p par = Some (val p)) ->
    parameter_ll lp zero add (after [] h) (Some ps) par delta
    = Ok (lsum zero add (measurement_terms lp delta val (fun p => memb p ps) h)).
Proof. intros P D V L EqP EqD lp zero add. exact (parameter_ll_spec lp zero add). Qed.
Print Assumptions C21_parameter_likelihood_is_sum.
(** C21: central values of the listed parameters in order. *)
Theorem C21_central_values_in_order :
  forall (P V : Type) (EqP : Eqb P) (central : od P V) ps vs,
    parameter_central central (Some ps) = Ok vs <-> Forall2 (fun p v => od_get p central = Some v) ps vs.
Proof.
  intros P V EqP central ps vs. unfold parameter_central. rewrite BaseLemmas.mapM_Ok.
  split; induction 1 as [|p v ps' vs' Hp _ IH]; constructor; auto.
  - destruct (od_get p central); congruence.
  - rewrite Hp. reflexivity.
Qed.
Print Assumptions C21_central_values_in_order.
(** C21: the total is the sum of the parameter part (zero without fit parameters) and the
    experimental part. *)
Theorem C21_total_is_sum_of_parts :
  forall (P D V L : Type) (EqP : Eqb P) (EqD : Eqb D) (lp : bool -> D -> larg V -> L)
         (zero : L) (add : L -> L -> L) shuffle (par_obj : cset P D) fit (m : ml P) reg par pred excl delta e,
    log_likelihood_pred lp zero add shuffle m reg pred excl delta = Ok e ->
    log_likelihood lp zero add shuffle par_obj fit m reg par pred excl delta =
    match fit with
    | None | Some [] => Ok (add zero e)
    | Some (_ :: _) => do a <- parameter_ll lp zero add par_obj fit par delta; Ok (add a e)
    end.
Proof.
  intros P D V L EqP EqD lp zero add shuffle par_obj fit m reg par pred excl delta e He.
  unfold log_likelihood, log_prior. rewrite He. destruct fit as [[|p ps]|]; cbn [truthy bind]; reflexivity.
Qed.
Print Assumptions C21_total_is_sum_of_parts.

(** C69 (a ParameterLikelihood without parameter list can be evaluated) is false: the
    default None raises TypeError. *)
Theorem C69_default_parameters_refuted :
  forall (lp : bool -> nat -> larg nat -> nat) (par_obj : cset string nat) par delta central,
    parameter_ll lp 0 Nat.add par_obj None par delta = Err TypeError /\
    parameter_central (P:=string) (V:=nat) central None = Err TypeError.
Proof. intros. split; reflexivity. Qed.
Print Assumptions C69_default_parameters_refuted.

(** C70: for a fit observable [o] and a non-fit observable [p], the number on which the
    correlation warning is based is the number of selected measurements that constrain [o] by
    a distribution shared with [p]; fit observables are never reported as profiled over. *)
Theorem C70_correlation_warning_counts :
  forall (P D : Type) (EqP : Eqb P) (EqD : Eqb D) (shuffle : list string -> list string),
    (forall l, Permutation (shuffle l) l) ->
    forall (m : ml P) (reg : od string (list (cop P D))) o p, NoDup (od_keys reg) ->
    exclude_measurements m = None \/ include_measurements m = None ->
    (forall n h, In (n, h) reg -> takes_part m n h -> ordinary h) -> In o (observables m) ->
    exists part, (forall n h, part (n, h) = true <-> takes_part m n h) /\
    listed o p (corr_with shuffle m (built reg))
    = if memb p (observables m) then 0
      else length (filter (fun nh => part nh && correlates (snd nh) o p) reg).
Proof.
  intros P D EqP EqD shuffle Hsh m reg o p Hnd Hone Hord Ho. exists (parts m). split.
  - intros n h. apply parts_spec. exact Hone.
  - exact (corr_with_spec shuffle Hsh m reg o p Hnd Hone Hord Ho).
Qed.
Print Assumptions C70_correlation_warning_counts.

(** ** Non-vacuity *)
Definition demo_reg : od string (list (cop string nat)) :=
  [("LHCb"%string, [Add false ["a"; "b"]%string 0]);
   ("Pseudo-measurement for X"%string, [Add false ["a"]%string 1]);
   ("CMS"%string, [Add false ["a"; "c"]%string 2; Add false ["c"]%string 3]);
   ("D0"%string, [Add false ["c"]%string 4])].
Definition demo_ml : ml string := mkML ["a"; "b"]%string (Some ["CDF"%string]) None false.
Definition zlp (delta : bool) (d : nat) (x : larg Z) : Z :=
  match x with Scalar v => v | Vec l None => fold_left Z.add l 100%Z | Vec l (Some _) => fold_left Z.add l 0%Z end.
Example demo_hypotheses :
  comm_monoid 0%Z Z.add /\ NoDup (od_keys demo_reg) /\
  (forall n h, In (n, h) demo_reg -> takes_part demo_ml n h -> ordinary h) /\
  get_measurements (@rev string) demo_ml (built demo_reg) = ["CMS"; "LHCb"]%string.
Proof.
  split; [constructor; intros; lia|]. split; [apply nodupb_NoDup; reflexivity|]. split; [|reflexivity].
  intros n h Hin _. cbn in Hin.
  repeat destruct Hin as [Hin|Hin]; try injection Hin as <- <-; try (apply ordinaryb_ordinary; reflexivity). destruct Hin.
Qed.
Example demo_value :
  log_likelihood_pred zlp 0%Z Z.add (@rev string) demo_ml (built demo_reg)
    [("a"%string, 3%Z); ("b"%string, 4%Z)] [] false = Ok 110%Z /\
  get_number_observations (@rev string) demo_ml (built demo_reg) ["b"%string] = Ok 2 /\
  listed "a"%string "c"%string (corr_with (@rev string) demo_ml (built demo_reg)) = 1.
Proof. vm_compute. repeat split. Qed.
