(** * Properties C22-C24, C71: covariances and FastLikelihoods *)
From Coq Require Import Permutation.
From Verif Require Import Base Constraints_Model Constraints_Spec Constraints_Proofs Observables_Model
  Likelihood_Model Likelihood_Spec Covariance_Model Covariance_Spec Covariance_Proofs.

(** C22: loading reorders to the own observables; superfluous ones are ignored. *)
Theorem C22_sm_covariance_reordered :
  forall (P V : Type) (EqP : Eqb P) (obs ours : list P) (rows : list (list V)),
    NoDup obs -> square (length obs) rows -> (forall o, In o ours -> In o obs) -> length ours <> 1 ->
    exists m, sm_load ours (obs, A2 rows) = Ok (A2 m) /\ matrix_in_basis obs ours rows m.
Proof. intros P V EqP. exact sm_load_matrix. Qed.
Print Assumptions C22_sm_covariance_reordered.
(** C22: a single observable gets a number: its variance. *)
Theorem C22_sm_single_observable :
  forall (P V : Type) (EqP : Eqb P) (obs : list P) o (rows : list (list V)) a,
    NoDup obs -> square (length obs) rows -> nth_error obs a = Some o ->
    exists v, sm_load [o] (obs, A2 rows) = Ok (A0 v) /\ entry rows a a = Some v.
Proof. intros P V EqP. exact sm_load_single. Qed.
Print Assumptions C22_sm_single_observable.
(** C22: the same for central values and covariance of the measurements. *)
Theorem C22_experimental_covariance_reordered :
  forall (P V : Type) (EqP : Eqb P) (obs ours : list P) (c : list V) (rows : list (list V)),
    NoDup obs -> square (length obs) rows -> length c = length obs -> (forall o, In o ours -> In o obs) ->
    exists c' m, exp_load ours (obs, (A1 c, A2 rows)) = Ok (A1 c', A2 m) /\
      vector_in_basis obs ours c c' /\ matrix_in_basis obs ours rows m.
Proof. intros P V EqP. exact exp_load_matrix. Qed.
Print Assumptions C22_experimental_covariance_reordered.
(** C22: a missing observable raises ValueError, whatever the matrix. *)
Theorem C22_missing_observable_raises :
  forall (P V : Type) (EqP : Eqb P) (obs ours : list P) (cov : arr V) (cc : arr V * arr V),
    (exists o, In o ours /\ ~ In o obs) ->
    sm_load ours (obs, cov) = Err ValueError /\ exp_load ours (obs, cc) = Err ValueError.
Proof.
  intros P V EqP obs ours cov cc Hm. split; [exact (sm_load_missing obs ours cov Hm)|exact (exp_load_missing obs ours cc Hm)].
Qed.
Print Assumptions C22_missing_observable_raises.
(** C22: saving and loading is the identity (the saved data are the own observables and the
    cached value; a single observable has a number as covariance). *)
Theorem C22_save_load_identity :
  forall (P V : Type) (EqP : Eqb P) (ours : list P), NoDup ours ->
    (forall rows : list (list V), square (length ours) rows -> length ours <> 1 ->
       sm_load ours (ours, A2 rows) = Ok (A2 rows)) /\
    (forall o (v : V), ours = [o] -> sm_load ours (ours, A0 v) = Ok (A0 v)) /\
    (forall (c : list V) rows, square (length ours) rows -> length c = length ours ->
       exp_load ours (ours, (A1 c, A2 rows)) = Ok (A1 c, A2 rows)) /\
    (forall o (c : V) cov, ours = [o] -> exp_load ours (ours, (A0 c, cov)) = Ok (A0 c, cov)).
Proof.
  intros P V EqP ours Hnd. split; [|split; [|split]].
  - intros rows Hsq Hl. exact (sm_roundtrip ours rows Hnd Hsq Hl).
  - intros o v ->. apply sm_load_scalar. left. reflexivity.
  - intros c rows Hsq Hc. exact (exp_roundtrip ours c rows Hnd Hsq Hc).
  - intros o c cov ->. apply exp_load_scalar. left. reflexivity.
Qed.
Print Assumptions C22_save_load_identity.

(** C71 (a single observable gets numbers from a larger file, as [compute] would give) is
    false for the experimental covariance: one-element arrays are stored. *)
Theorem C71_single_observable_from_larger_file_refuted :
  forall (V : Type) (c1 c2 v11 v12 v21 v22 : V),
    exp_load ["b"%string] (["a"; "b"]%string, (A1 [c1; c2], A2 [[v11; v12]; [v21; v22]]))
      = Ok (A1 [c2], A2 [[v22]]) /\
    sm_load ["b"%string] (["a"; "b"]%string, A2 [[v11; v12]; [v21; v22]]) = Ok (A0 v22).
Proof. intros. split; reflexivity. Qed.
Print Assumptions C71_single_observable_from_larger_file_refuted.

(** C23: after any sequence of calls, the next call behaves as follows, where [last] is the
    value last returned by get or loaded: get returns [last] iff there is one and force is
    false, else the freshly computed one (which then is the last); save saves [last]. *)
Theorem C23_cache_discipline :
  forall (P C : Type) (default_N : nat) (ours : list P) (load : list P -> list P * C -> result C)
         (ops : list (cov_op P C)) (o : cov_op P C),
    let tr := snd (cov_run default_N ours load ops None []) in
    let last := latest (load ours) tr in
    snd (cov_run default_N ours load (ops ++ [o]) None []) =
    (o, match o, last with
        | Get N false _, Some c => Got c (negb (Nat.eqb N default_N))
        | Get _ _ (Ok c), _ => Got c false
        | Get _ _ (Err e), _ => Raised e
        | Load d, _ => match load ours d with Ok _ => Loaded | Err e => Raised e end
        | Save, Some c => Saved (ours, c)
        | Save, None => Raised ValueError
        end) :: tr.
Proof.
  intros P C default_N ours load ops o. cbn zeta.
  rewrite (cov_outcome default_N ours load ops o). f_equal. f_equal.
  destruct o as [N [|] [c|e]|d|]; destruct (latest _ _); try reflexivity; cbn; destruct (load ours d); reflexivity.
Qed.
Print Assumptions C23_cache_discipline.

(** C24: making a pseudo-measurement changes nothing for likelihoods that did not ask for
    pseudo-measurements: same measurements, same log-likelihood, same number of observations. *)
Theorem C24_pseudo_measurements_do_not_leak :
  forall (P D V L : Type) (EqP : Eqb P) (EqD : Eqb D) (lp : bool -> D -> larg V -> L)
         (zero : L) (add : L -> L -> L) (shuffle : list string -> list string),
    (forall l, Permutation (shuffle l) l) ->
    forall (m : ml P) (makes : list (fast P * D)) (reg : od string (list (cop P D))) pred excl delta,
    include_pseudo m = false ->
    let reg' := frun (map (fun fd => Make (fst fd) (snd fd)) makes) reg in
    Likelihood_Model.get_measurements shuffle m (built reg') = Likelihood_Model.get_measurements shuffle m (built reg) /\
    log_likelihood_pred lp zero add shuffle m (built reg') pred excl delta
      = log_likelihood_pred lp zero add shuffle m (built reg) pred excl delta /\
    get_number_observations shuffle m (built reg') excl = get_number_observations shuffle m (built reg) excl.
Proof.
  intros P D V L EqP EqD lp zero add shuffle Hsh m makes reg pred excl delta Hm.
  exact (makes_invisible lp zero add shuffle m makes reg pred excl delta Hsh Hm).
Qed.
Print Assumptions C24_pseudo_measurements_do_not_leak.

(** C24: a FastLikelihood evaluates exactly its own pseudo-measurement, whatever other
    FastLikelihoods (of a different name) and measurements are made or deleted afterwards. *)
Theorem C24_own_pseudo_measurement_partial :
  forall (P D V L : Type) (EqP : Eqb P) (EqD : Eqb D) (lp : bool -> D -> larg V -> L)
         (zero : L) (add : L -> L -> L) (shuffle : list string -> list string)
         (es : list (fevent P D)) (f : fast P) (d : D) (reg : od string (list (cop P D))) pred (val : P -> V) delta,
    (forall l, Permutation (shuffle l) l) -> comm_monoid zero add ->
    NoDup (od_keys reg) -> NoDup (f_obs f) -> f_obs f <> [] ->
    (forall p, In p (f_obs f) -> od_get p pred = Some (val p)) ->
    Forall (fun e => target e <> pseudo_of (f_name f)) es ->
    fast_log_likelihood lp zero add shuffle f (frun es (make_measurement f d reg)) pred [] delta
    = Ok (lp delta d (match f_obs f with [p] => Scalar (val p) | ps => Vec (map val ps) None end)).
Proof. intros P D V L EqP EqD. exact (@fast_own_all P D V L EqP EqD). Qed.
Print Assumptions C24_own_pseudo_measurement_partial.
Theorem C24_different_names_do_not_interfere :
  forall (P D : Type) (f g : fast P) (d : D), f_name f <> f_name g -> target (Make g d) <> pseudo_of (f_name f).
Proof. intros P D f g d Hne E. apply pseudo_of_inj in E. congruence. Qed.
Print Assumptions C24_different_names_do_not_interfere.

(** C24 as stated is false for two FastLikelihoods of the same name: the second one's
    pseudo-measurement replaces the first one's. *)
Theorem C24_same_name_refuted :
  forall (lp : bool -> nat -> larg Z -> Z) (delta : bool),
    let f := mkFast "fit" ["a"%string] in
    let g := mkFast "fit" ["a"%string] in
    fast_log_likelihood lp 0%Z Z.add (fun l => l) f (frun [Make g 2] (make_measurement f 1 [])) [("a"%string, 7%Z)] [] delta
    = Ok (lp delta 2 (Scalar 7%Z)).
Proof. intros lp delta. reflexivity. Qed.
Print Assumptions C24_same_name_refuted.

(** ** Non-vacuity *)
Example demo_reorder :
  sm_load ["c"; "a"]%string (["a"; "b"; "c"]%string, A2 [[11; 12; 13]; [21; 22; 23]; [31; 32; 33]])
  = Ok (A2 [[33; 31]; [13; 11]]) /\ square 3 [[11; 12; 13]; [21; 22; 23]; [31; 32; 33]].
Proof. split; [reflexivity|split; [reflexivity|repeat constructor]]. Qed.
Example demo_cache :
  map snd (snd (cov_run 100 ["a"%string] (fun _ d => Ok (snd d))
     [Get 100 false (Ok 1); Get 50 false (Ok 2); Save; Get 50 true (Ok 3); Load (["a"%string], 4); Get 100 false (Ok 5)]
     None []))
  = [Got 4 false; Loaded; Got 3 false; Saved (["a"%string], 1); Got 1 true; Got 1 false].
Proof. reflexivity. Qed.
Example demo_fast :
  let f := mkFast "f" ["a"; "b"]%string in
  let g := mkFast "g" ["b"]%string in
  fast_log_likelihood (fun (_ : bool) (d : nat) (x : larg Z) => match x with Scalar v => v | Vec l _ => fold_left Z.add l (Z.of_nat d) end)
     0%Z Z.add (fun l => l) f (frun [Make g 5; NewMeasurement "LHCb" [Add false ["a"%string] 9]] (make_measurement f 1 []))
     [("a"%string, 7%Z); ("b"%string, 8%Z)] [] false = Ok 16%Z.
Proof. vm_compute. reflexivity. Qed.
