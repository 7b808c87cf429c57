(** * Model of SMCovariance, MeasurementCovariance and FastLikelihood
    (flavio/statistics/likelihood.py 335-715)

    numpy arrays of dimension 0, 1, 2 are [arr V] (Constraints_Model); entries are values of
    an abstract type.  pickle.dump followed by pickle.load is the identity on the data.
    Simplifications: the 'covariance' and 'central' entries of a loaded dictionary are numpy
    arrays or scalars (a nested Python list has no .shape and raises). *)
From Verif Require Import Base Constraints_Model Likelihood_Model Likelihood_Spec.
Set Implicit Arguments.

Section Cov.
  Context {P V : Type} `{Eqb P}.

  (** numpy indexing by a list of integers: [a\[perm\]] *)
  Definition take {X} (perm : list nat) (l : list X) : result (list X) :=
    mapM (fun i => match nth_error l i with Some x => Ok x | None => Err IndexError end) perm.
  (** [a\[perm\]\[:, perm\]] *)
  Definition submatrix (perm : list nat) (a : arr V) : result (list (list V)) :=
    match a with
    | A2 rows => do rs <- take perm rows; mapM (take perm) rs
    | _ => Err IndexError
    end.

  (** likelihood.py 417-423, 579-585: [permutation = \[obs.index(o) for o in observables\]].
      The assertion on the length that follows can never fail. *)
  Definition permutation (obs ours : list P) : result (list nat) :=
    mapM (fun o => match index_of o obs with Some i => Ok i | None => Err ValueError end) ours.

  (** likelihood.py 407-430 [SMCovariance.load_dict]: the new value of [_cov] *)
  Definition sm_load (ours : list P) (d : list P * arr V) : result (arr V) :=
    let '(obs, cov) := d in
    do perm <- permutation obs ours;
    if Nat.eqb (length perm) 1 then
      match cov with
      | A0 v => Ok (A0 v)
      | _ => do m <- submatrix perm cov;
             match m with
             | (v :: _) :: _ => Ok (A0 v)
             | _ => Err IndexError
             end
      end
    else do m <- submatrix perm cov; Ok (A2 m).

  (** likelihood.py 565-596 [MeasurementCovariance.load_dict]: new [_central_cov] *)
  Definition exp_load (ours : list P) (d : list P * (arr V * arr V)) : result (arr V * arr V) :=
    let '(obs, (central, cov)) := d in
    do perm <- permutation obs ours;
    match central with
    | A0 c => Ok (A0 c, cov)
    | A1 l => do c <- take perm l; do m <- submatrix perm cov; Ok (A1 c, A2 m)
    | A2 rows => do c <- take perm rows; do m <- submatrix perm cov; Ok (A2 c, A2 m)
    end.
End Cov.

(** ** The cache: likelihood.py 374-405 (SMCovariance.get/save/load) and 534-563
    (MeasurementCovariance.get/save/load), which differ only in the default of [N] (100,
    5000) and the cached data. *)
Section CovState.
  Context {P C : Type}.             (* C: what is cached (a matrix, or central and matrix) *)
  Variable default_N : nat.
  Variable ours : list P.           (* the observables of this object *)
  Variable load_dict : list P -> list P * C -> result C.

  Inductive cov_op : Type :=
  | Get (N : nat) (force : bool) (fresh : result C)   (* [fresh]: what [compute] returns now *)
  | Load (d : list P * C)                             (* load or load_dict *)
  | Save.
  Inductive cov_out : Type :=
  | Got (c : C) (warned : bool)
  | Loaded
  | Saved (d : list P * C)
  | Raised (e : exc).

  (** [self._cov] / [self._central_cov]; 356, 457: initially None *)
  Definition cov_step (st : option C) (o : cov_op) : option C * cov_out :=
    match o with
    | Get N force fresh =>
      match st, force with
      | Some c, false => (st, Got c (negb (Nat.eqb N default_N)))
      | _, _ => match fresh with Ok c => (Some c, Got c false) | Err e => (st, Raised e) end
      end
    | Load d => match load_dict ours d with Ok c => (Some c, Loaded) | Err e => (st, Raised e) end
    | Save => match st with Some c => (st, Saved (ours, c)) | None => (st, Raised ValueError) end
    end.
  (** a run: final state and the trace of operations with their outcomes, newest first *)
  Fixpoint cov_run (ops : list cov_op) (st : option C) (tr : list (cov_op * cov_out))
    : option C * list (cov_op * cov_out) :=
    match ops with
    | [] => (st, tr)
    | o :: ops' => let '(st', out) := cov_step st o in cov_run ops' st' ((o, out) :: tr)
    end.
End CovState.
Arguments cov_op : clear implicits.
Arguments cov_out : clear implicits.
Arguments Loaded {P C}.
Arguments Raised {P C} e.
Arguments Save {P C}.

(** ** FastLikelihood, likelihood.py 599-715 *)
Section Fast.
  Context {P D V L : Type} `{Eqb P} `{Eqb D}.
  Variable lp : bool -> D -> larg V -> L.
  Variable lzero : L.
  Variable ladd : L -> L -> L.
  Variable shuffle : list string -> list string.

  (** likelihood.py 672 *)
  Definition pseudo_of (name : string) : string :=
    ("Pseudo-measurement for FastLikelihood instance: " ++ name)%string.

  (** A FastLikelihood object: its name and observables. *)
  Record fast : Type := mkFast { f_name : string; f_obs : list P }.

  (** The measurement registry is given by the history of each measurement object; creating
      a measurement with an existing name puts a new object in its place
      (NamedInstanceClass.__init__). *)
  Definition hreg := od string (list (cop P D)).

  (** likelihood.py 671-680, 686: make_measurement registers a new measurement holding a
      single constraint [d] (Normal or MultivariateNormal from central_exp and covariance). *)
  Definition make_measurement (f : fast) (d : D) (reg : hreg) : hreg :=
    od_set (pseudo_of (f_name f)) [Add false (f_obs f) d] reg.

  (** likelihood.py 681-688: the Likelihood object built on the pseudo-measurement *)
  Definition fast_ml (f : fast) : ml P :=
    mkML (f_obs f) None (Some [pseudo_of (f_name f)]) true.

  (** likelihood.py 707-715 [log_likelihood], with the predictions supplied *)
  Definition fast_log_likelihood (f : fast) (reg : hreg) (pred : od P V) (excl : list P)
      (delta : bool) : result L :=
    log_likelihood_pred lp lzero ladd shuffle (fast_ml f) (built reg) pred excl delta.

  (** Events of a program that change the measurement registry. *)
  Inductive fevent : Type :=
  | Make (f : fast) (d : D)                         (* f.make_measurement(...) *)
  | NewMeasurement (name : string) (h : list (cop P D))  (* any other Measurement *)
  | DelMeasurement (name : string).
  Definition target (e : fevent) : string :=
    match e with
    | Make f _ => pseudo_of (f_name f)
    | NewMeasurement n _ => n
    | DelMeasurement n => n
    end.
  Definition fstep (reg : hreg) (e : fevent) : hreg :=
    match e with
    | Make f d => make_measurement f d reg
    | NewMeasurement n h => od_set n h reg
    | DelMeasurement n => od_pop n reg
    end.
  Definition frun (es : list fevent) (reg : hreg) : hreg := fold_left fstep es reg.
End Fast.
Arguments fast : clear implicits.
Arguments fevent : clear implicits.
