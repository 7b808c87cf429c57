(** * Model of dumping and loading likelihood objects
    (flavio/io/instanceio.py 10-95 and the schemas of flavio/statistics/likelihood.py 28-38,
    205-213, 280-294, 637-655)

    A dumped object is a dictionary with optional keys ([None] = key absent); YAML text is not
    modelled.  [voluptuous]: unlisted attributes are removed on output, every key is optional,
    a validator raising ValueError becomes a validation error ([VolInvalid]), other exceptions
    propagate.  Parameter objects are values of an abstract type [PO] with [diff]
    (get_par_diff, which is property C50) and [undiff] (coerce_par_obj). *)
From Verif Require Import Base Constraints_Model ConstraintsIO_Model Observables_Model Likelihood_Model.
Set Implicit Arguments.

(** instanceio.py 90-95 [list_deduplicate]: [list(OrderedDict.fromkeys(lst))] *)
Definition list_deduplicate {A} `{Eqb A} (l : list A) : list A :=
  od_keys (fold_left (fun d x => od_set x tt d) l []).

Section IO.
  Context {A PO E : Type} `{Eqb A}.
  Notation key := (pkey (pyval A)).
  Variable oreg : od string (option (list string)).   (* registered observables *)
  Variable default_par : PO.                          (* flavio.default_parameters *)
  Variable diff : PO -> list E.
  Variable undiff : list E -> result PO.

  (** instanceio.py 51-53 [coerce_observable_tuple] on a dictionary read from a file *)
  Definition coerce_tuple (d : od string (pyval A)) : result key :=
    do o <- argument_format oreg (IDict d) FTuple;
    match o with
    | OStr s => Ok (KStr s)
    | OTuple l => Ok (KTup l)
    | _ => Err TypeError          (* not produced by format 'tuple' *)
    end.
  (** instanceio.py 56-58 [coerce_observable_dict] on an observable of the object *)
  Definition coerce_dict (k : key) : result (od string (pyval A)) :=
    do o <- argument_format oreg (match k with KStr s => IStr s | KTup l => ISeq l end) FDict;
    match o with ODict d => Ok d | _ => Err TypeError end.

  (** instanceio.py 69-76 [ensurelist] on None or a list *)
  Definition ensurelist {X} (v : option (list X)) : list X := match v with None => [] | Some l => l end.
  (** instanceio.py 42: empty lists are removed from the dumped dictionary *)
  Definition nonempty {X} (l : list X) : option (list X) := match l with [] => None | _ => Some l end.

  Record ydict : Type := mkY {
    y_name : option string;
    y_par : option (list E);
    y_fit : option (list string);          (* fit_parameters / parameters *)
    y_nuisance : option (list string);
    y_obs : option (list (od string (pyval A)));
    y_exclude : option (list string);
    y_include : option (list string)
  }.
  Definition load_obs (y : option (list (od string (pyval A)))) : result (list key) :=
    match y with
    | None => Err TypeError                 (* missing argument / None is not iterable *)
    | Some l => do ks <- mapM coerce_tuple l; Ok (list_deduplicate ks)
    end.
  Definition load_par (y : option (list E)) : result PO :=
    match y with None => Ok default_par | Some l => undiff l end.

  (** ** MeasurementLikelihood, likelihood.py 28-38 *)
  Definition dump_ml (m : ml key) : result ydict :=
    do os <- mapM coerce_dict (observables m);
    Ok (mkY None None None None (nonempty os)
          (nonempty (ensurelist (exclude_measurements m)))
          (nonempty (ensurelist (include_measurements m)))).
  Definition load_ml (d : ydict) : result (ml key) :=
    do os <- load_obs (y_obs d);
    Ok (mkML os (y_exclude d) (y_include d) false).

  (** ** ParameterLikelihood, likelihood.py 205-231 *)
  Record plike : Type := mkPL { pl_par : PO; pl_parameters : option (list string) }.
  Definition dump_pl (p : plike) : ydict :=
    mkY None (nonempty (diff (pl_par p))) (nonempty (ensurelist (pl_parameters p))) None None None None.
  Definition load_pl (d : ydict) : result plike :=
    do po <- load_par (y_par d); Ok (mkPL po (y_fit d)).

  (** ** Likelihood, likelihood.py 280-294: the output schema applies [get_par_diff] to the
      list of fit parameters (AttributeError: no get_yaml_dict) and demands a list of
      dictionaries as par_obj (invalid for a parameter object); whichever key voluptuous
      visits first raises. *)
  Record like : Type := mkLike { l_par : PO; l_fit : list string; l_ml : ml key }.
  Definition dump_like (par_first : bool) (l : like) : result ydict :=
    if par_first then Err VolInvalid else Err AttributeError.

  (** ** FastLikelihood, likelihood.py 637-689 *)
  Record flike : Type := mkFL {
    fl_name : string; fl_par : PO; fl_fit : list string; fl_nuisance : list string;
    fl_obs : list key; fl_exclude : option (list string); fl_include : option (list string)
  }.
  Inductive nuis : Type := NAll | NList (l : list string) | NNone.
  Variable all_pars : PO -> list string.     (* par_obj.all_parameters *)
  (** likelihood.py 657-676 *)
  Definition new_fl (name : string) (po : PO) (fit : option (list string)) (n : nuis)
      (obs : list key) (ex inc : option (list string)) : flike :=
    mkFL name po (ensurelist fit)
      (match n with NAll => all_pars po | NList l => l | NNone => [] end) obs ex inc.
  Definition dump_fl (f : flike) : result ydict :=
    do os <- mapM coerce_dict (fl_obs f);
    Ok (mkY (Some (fl_name f)) (nonempty (diff (fl_par f))) (nonempty (fl_fit f)) (nonempty (fl_nuisance f))
          (nonempty os) (nonempty (ensurelist (fl_exclude f))) (nonempty (ensurelist (fl_include f)))).
  Definition load_fl (d : ydict) : result flike :=
    match y_name d with
    | None => Err TypeError
    | Some name =>
      do po <- load_par (y_par d);
      do os <- load_obs (y_obs d);
      Ok (new_fl name po (y_fit d) (match y_nuisance d with None => NAll | Some l => NList l end) os
            (y_exclude d) (y_include d))
    end.
End IO.
Arguments plike : clear implicits.
Arguments flike : clear implicits.
Arguments ydict : clear implicits.
Arguments like : clear implicits.
