(** * Properties C49, C51: dumping and loading likelihoods *)
From Coq Require Import Permutation.
From Verif Require Import Base Constraints_Model ConstraintsIO_Model Observables_Model
  Constraints_Spec Likelihood_Model Likelihood_Spec InstanceIO_Model InstanceIO_Proofs.

(** C49: the result has the same elements, each once, and keeps the order of first occurrence. *)
Theorem C49_deduplicate :
  forall (A : Type) (EqA : Eqb A) (l : list A),
    NoDup (list_deduplicate l) /\ (forall x, In x (list_deduplicate l) <-> In x l) /\
    (NoDup l -> list_deduplicate l = l) /\
    (forall x y l1 l2, l = l1 ++ y :: l2 -> ~ In y l1 -> x <> y -> In x l1 ->
       exists a b c, list_deduplicate l = a ++ x :: b ++ y :: c).
Proof.
  intros A EqA l. rewrite list_deduplicate_eq. split; [apply BaseLemmas.dedup_NoDup|]. split; [intro x; apply BaseLemmas.dedup_In|].
  split; [apply dedup_id|]. intros x y l1 l2 -> Hy Hne Hx. exact (first_occurrence x y l1 l2 Hy Hne Hx).
Qed.
Print Assumptions C49_deduplicate.

(** C51, MeasurementLikelihood: with valid, distinct observables, load(dump(m)) has the same
    observables and selects the same measurements, if pseudo-measurements are not included
    and at most one list is given. *)
Theorem C51_measurement_likelihood_partial :
  forall (A E D : Type) (EqA : Eqb A) (EqD : Eqb D) (shuffle : list string -> list string),
    (forall l, Permutation (shuffle l) l) ->
    forall (oreg : od string (option (list string))) (m : ml (pkey (pyval A))) (reg : od string (cset (pkey (pyval A)) D)),
    Forall (valid_key oreg) (observables m) -> NoDup (observables m) -> observables m <> [] ->
    exclude_measurements m = None \/ include_measurements m = None -> include_measurements m <> Some [] ->
    include_pseudo m = false ->
    exists d m', dump_ml (E:=E) oreg m = Ok d /\ load_ml oreg d = Ok m' /\ observables m' = observables m /\
      include_pseudo m' = include_pseudo m /\
      Permutation (Likelihood_Model.get_measurements shuffle m' reg) (Likelihood_Model.get_measurements shuffle m reg).
Proof.
  intros A E D EqA EqD shuffle Hsh oreg m reg Hv Hnd Hne Hone Hinc Hps.
  destruct (ml_roundtrip (E:=E) oreg m Hv Hnd Hne) as [d [H1 H2]]. exists d. eexists. split; [exact H1|]. split; [exact H2|].
  split; [reflexivity|]. split; [symmetry; exact Hps|]. exact (reread_selection shuffle Hsh m reg Hone Hinc Hps).
Qed.
Print Assumptions C51_measurement_likelihood_partial.

(** C51, FastLikelihood with at least one nuisance parameter: load(dump(f)) has the same name,
    fit and nuisance parameters, observables and (up to empty lists) measurement lists; its
    parameter object is the one rebuilt from the saved difference (C50). *)
Theorem C51_fast_likelihood_partial :
  forall (A PO E : Type) (EqA : Eqb A) (oreg : od string (option (list string))) (default_par : PO)
         (diff : PO -> list E) (undiff : list E -> result PO) (all_pars : PO -> list string) (f : flike A PO) po,
    Forall (valid_key oreg) (fl_obs f) -> NoDup (fl_obs f) -> fl_obs f <> [] -> fl_nuisance f <> [] ->
    (diff (fl_par f) = [] -> po = default_par) -> (diff (fl_par f) <> [] -> undiff (diff (fl_par f)) = Ok po) ->
    exists d f', dump_fl oreg diff f = Ok d /\ load_fl oreg default_par undiff all_pars d = Ok f' /\
      fl_name f' = fl_name f /\ fl_par f' = po /\ fl_fit f' = fl_fit f /\ fl_nuisance f' = fl_nuisance f /\
      fl_obs f' = fl_obs f /\ ensurelist (fl_exclude f') = ensurelist (fl_exclude f) /\
      ensurelist (fl_include f') = ensurelist (fl_include f).
Proof.
  intros A PO E EqA oreg default_par diff undiff all_pars f po Hv Hnd Hne Hnu H0 H1.
  destruct (fl_roundtrip oreg default_par diff undiff all_pars f Hv Hnd Hne Hnu) as [d [Hd Hl]].
  exists d. destruct (diff (fl_par f)) as [|e es] eqn:Ed; cbn [nonempty load_par bind] in Hl.
  - rewrite (H0 eq_refl). eexists. split; [exact Hd|]. split; [exact Hl|].
    cbn. unfold reread. destruct (fl_exclude f) as [[|]|], (fl_include f) as [[|]|]; repeat split.
  - rewrite H1 in Hl by discriminate. cbn [bind] in Hl. eexists. split; [exact Hd|]. split; [exact Hl|].
    cbn. unfold reread. destruct (fl_exclude f) as [[|]|], (fl_include f) as [[|]|]; repeat split.
Qed.
Print Assumptions C51_fast_likelihood_partial.

(** C51 is false for Likelihood: dump raises for every object. *)
Theorem C51_likelihood_dump_refuted :
  forall (A PO E : Type) (l : like A PO) (par_first : bool), exists e, dump_like (E:=E) par_first l = Err e.
Proof. intros A PO E l [|]; [exists VolInvalid|exists AttributeError]; reflexivity. Qed.
Print Assumptions C51_likelihood_dump_refuted.

(** C51 is false for a MeasurementLikelihood including pseudo-measurements: the flag is lost. *)
Theorem C51_pseudo_flag_refuted :
  exists (oreg : od string (option (list string))) (m m' : ml (pkey (pyval nat))) d
         (reg : od string (cset (pkey (pyval nat)) nat)),
    dump_ml (E:=unit) oreg m = Ok d /\ load_ml oreg d = Ok m' /\
    new_ml (fun l => l) m reg = Ok m /\ new_ml (fun l => l) m' reg = Err AssertionError.
Proof.
  exists [("o"%string, None)], (mkML [KStr "o"%string] None None true). eexists. eexists.
  exists [("Pseudo-measurement for X"%string, after [] [Add false [KStr "o"%string] 1])].
  vm_compute. repeat split.
Qed.
Print Assumptions C51_pseudo_flag_refuted.

(** C51 is false for a FastLikelihood without nuisance parameters: after load all parameters
    are nuisance parameters. *)
Theorem C51_no_nuisance_parameters_refuted :
  forall (PO E : Type) (par : PO) (undiff : list E -> result PO) (all_pars : PO -> list string),
  exists (oreg : od string (option (list string))) (f f' : flike nat PO) d,
    fl_nuisance f = [] /\ dump_fl oreg (fun _ => @nil E) f = Ok d /\
    load_fl oreg par undiff all_pars d = Ok f' /\ fl_nuisance f' = all_pars par.
Proof.
  intros PO E par undiff all_pars.
  exists [("o"%string, None)], (mkFL "f" par [] [] [KStr "o"%string] None None). eexists. eexists.
  cbn. repeat split.
Qed.
Print Assumptions C51_no_nuisance_parameters_refuted.

(** C51, ParameterLikelihood: same parameters if a non-empty list was given; an empty list
    comes back as None, which cannot be evaluated (C69). *)
Theorem C51_parameter_likelihood_partial :
  forall (A PO E : Type) (default_par : PO) (diff : PO -> list E) (undiff : list E -> result PO) (p : plike PO) po,
    (diff (pl_par p) = [] -> po = default_par) -> (diff (pl_par p) <> [] -> undiff (diff (pl_par p)) = Ok po) ->
    pl_parameters p <> Some [] ->
    load_pl default_par undiff (dump_pl (A:=A) diff p) = Ok (mkPL po (pl_parameters p)).
Proof.
  intros A PO E default_par diff undiff [par ps] po H0 H1 Hne. unfold load_pl, dump_pl. cbn in *.
  destruct (diff par) as [|e es]; cbn [nonempty load_par bind].
  - rewrite (H0 eq_refl). destruct ps as [[|]|]; try congruence; reflexivity.
  - rewrite H1 by discriminate. cbn [bind]. destruct ps as [[|]|]; try congruence; reflexivity.
Qed.
Print Assumptions C51_parameter_likelihood_partial.
Theorem C51_empty_parameter_list_refuted :
  forall (PO E : Type) (par : PO) (undiff : list E -> result PO),
    load_pl par undiff (dump_pl (A:=nat) (fun _ => @nil E) (mkPL par (Some []))) = Ok (mkPL par None).
Proof. reflexivity. Qed.
Print Assumptions C51_empty_parameter_list_refuted.

(** ** Non-vacuity *)
Definition demo_oreg : od string (option (list string)) :=
  [("o"%string, None); ("<P5p>"%string, Some ["q2min"; "q2max"]%string)].
Definition demo_m : ml (pkey (pyval nat)) :=
  mkML [KStr "o"%string; KTup [VStr "<P5p>"%string; VNum 1; VNum 6]] (Some []) None false.
Example demo_valid : Forall (valid_key demo_oreg) (observables demo_m) /\ NoDup (observables demo_m).
Proof.
  split.
  - repeat constructor; cbn. exists ["q2min"; "q2max"]%string. repeat split; try reflexivity.
    + repeat constructor; cbn; intuition discriminate.
    + cbn. intuition discriminate.
  - repeat constructor; cbn; intuition discriminate.
Qed.
Example demo_roundtrip : exists d, dump_ml (E:=unit) demo_oreg demo_m = Ok d /\
  load_ml demo_oreg d = Ok (mkML (observables demo_m) None None false).
Proof. eexists. vm_compute. split; reflexivity. Qed.
Example demo_dedup : list_deduplicate [3; 1; 3; 2; 1] = [3; 1; 2].
Proof. reflexivity. Qed.
