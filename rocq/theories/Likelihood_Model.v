(** * Model of MeasurementLikelihood, ParameterLikelihood and Likelihood
    (flavio/statistics/likelihood.py 12-332)

    Measurements are constraint sets (Constraints_Model) registered under names.  Log-values
    are elements of a type [L] with a zero and an addition (floats idealised; -inf may be an
    element).  [shuffle] stands for the unspecified iteration order of Python sets. *)
From Verif Require Import Base Constraints_Model Observables_Model.
Set Implicit Arguments.

Section Likelihood.
  Context {P D V L : Type} `{Eqb P} `{Eqb D}.
  Variable lp : bool -> D -> larg V -> L.     (* logpdf / delta_logpdf *)
  Variable lzero : L.
  Variable ladd : L -> L -> L.
  Variable shuffle : list string -> list string.   (* order of [list(set(..))] *)

  (** Python [sum]: left to right, starting from 0 *)
  Definition lsum (l : list L) : L := fold_left ladd l lzero.

  (** flavio.Measurement.instances *)
  Definition registry := od string (cset P D).

  (** The options of a MeasurementLikelihood, likelihood.py 39-60 *)
  Record ml : Type := mkML {
    observables : list P;
    exclude_measurements : option (list string);
    include_measurements : option (list string);
    include_pseudo : bool
  }.

  (** likelihood.py 121: [m_name.split(' ')\[0\] == 'Pseudo-measurement'] *)
  Definition is_pseudo (name : string) : bool :=
    match split " "%string name with
    | first :: _ => eqb first "Pseudo-measurement"%string
    | [] => false
    end.

  (** likelihood.py 115-129, the loop over all measurements *)
  Definition all_measurements (m : ml) (reg : registry) : list string :=
    map fst (filter (fun nm =>
      negb (is_pseudo (fst nm) && negb (include_pseudo m)) &&
      existsb (fun p => memb p (observables m)) (all_parameters (snd nm))) reg).

  (** likelihood.py 113-136 [get_measurements] *)
  Definition get_measurements (m : ml) (reg : registry) : list string :=
    let all := all_measurements m reg in
    match exclude_measurements m, include_measurements m with
    | None, None => all
    | Some ex, _ => shuffle (filter (fun n => negb (memb n ex)) all)
    | None, Some inc => shuffle (filter (fun n => memb n inc) all)
    end.

  (** Python truth value of an optional list *)
  Definition truthy {A} (o : option (list A)) : bool :=
    match o with Some (_ :: _) => true | _ => false end.

  (** likelihood.py 39-72 [__init__]: options check, then every observable must be
      constrained by a selected measurement. *)
  Definition new_ml (m : ml) (reg : registry) : result ml :=
    if truthy (exclude_measurements m) && truthy (include_measurements m) then Err ValueError
    else
      let measured := flat_map (fun n => match od_get n reg with
                                         | Some c => all_parameters c
                                         | None => []
                                         end) (get_measurements m reg) in
      if forallb (fun o => memb o measured) (observables m) then Ok m else Err AssertionError.

  (** likelihood.py 181-188: the parameters excluded for one measurement *)
  Definition exclude_parameters (m : ml) (excl : list P) (c : cset P D) : list P :=
    filter (fun p => negb (memb p (observables m))) (all_parameters c) ++ excl.
  (** equality of Python sets *)
  Definition set_eqb (a b : list P) : bool :=
    forallb (fun x => memb x b) a && forallb (fun x => memb x a) b.

  (** likelihood.py 175-192 [log_likelihood_pred] *)
  Definition ll_step (m : ml) (reg : registry) (pred : od P V) (excl : list P) (delta : bool)
      (ll : L) (name : string) : result L :=
    match od_get name reg with
    | None => Err KeyError
    | Some c =>
      let ex := exclude_parameters m excl c in
      if set_eqb (all_parameters c) ex then Ok ll
      else
        do d <- get_logprobability_all lp pred ex delta c;
        Ok (ladd ll (lsum (od_vals d)))
    end.
  Definition log_likelihood_pred (m : ml) (reg : registry) (pred : od P V) (excl : list P)
      (delta : bool) : result L :=
    foldM (ll_step m reg pred excl delta) (get_measurements m reg) lzero.

  (** likelihood.py 158-172 [get_number_observations] *)
  Definition get_number_observations (m : ml) (reg : registry) (excl : list P) : result nat :=
    foldM (fun n name =>
      match od_get name reg with
      | None => Err KeyError
      | Some c =>
        let ours := filter (fun p => negb (memb p excl)) (dedup (observables m)) in
        Ok (n + length (filter (fun p => memb p ours) (all_parameters c)))
      end) (get_measurements m reg) 0.

  (** likelihood.py 74-111 [_warn_meas_corr]: the dictionary of lists before counting.  The
      parameter list of a distribution is that of its first entry in [_constraints]. *)
  Definition first_list (c : cset P D) (d : D) : option (list P) :=
    option_map snd (List.find (fun cp => eqb (fst cp) d) (cons c)).
  Definition corr_add (obs : P) (acc : od P (list P)) (p : P) : od P (list P) :=
    match od_get p acc with
    | None => od_set p [obs] acc
    | Some l => od_set p (l ++ [obs]) acc
    end.
  Definition corr_obs (m : ml) (c : cset P D) (acc : od P (list P)) (obs : P) : od P (list P) :=
    match od_get obs (pars c) with
    | None => acc
    | Some (_, d) => match first_list c d with
                     | None => acc
                     | Some ps => fold_left (corr_add obs) (filter (fun p => negb (memb p (observables m))) ps) acc
                     end
    end.
  Definition corr_with (m : ml) (reg : registry) : od P (list P) :=
    fold_left (fun acc name =>
      match od_get name reg with
      | None => acc
      | Some c => fold_left (corr_obs m c)
                    (filter (fun o => memb o (all_parameters c)) (dedup (observables m))) acc
      end) (get_measurements m reg) [].

  (** ** ParameterLikelihood, likelihood.py 203-259 *)
  (** likelihood.py 239-246 [log_likelihood_par]; [set(None)] raises TypeError *)
  Definition parameter_ll (par_obj : cset P D) (parameters : option (list P)) (par : od P V)
      (delta : bool) : result L :=
    match parameters with
    | None => Err TypeError
    | Some ps =>
      do d <- get_logprobability_all lp par
                (filter (fun p => negb (memb p ps)) (all_parameters par_obj)) delta par_obj;
      Ok (lsum (od_vals d))
    end.
  (** likelihood.py 248-251 [get_central] ([central] = get_central_all at construction) *)
  Definition parameter_central (central : od P V) (parameters : option (list P)) : result (list V) :=
    match parameters with
    | None => Err TypeError
    | Some ps => mapM (fun p => match od_get p central with Some v => Ok v | None => Err KeyError end) ps
    end.

  (** ** Likelihood, likelihood.py 262-332 *)
  (** likelihood.py 313-317: [if not self.fit_parameters: return 0] *)
  Definition log_prior (par_obj : cset P D) (fit_parameters : option (list P)) (par : od P V)
      (delta : bool) : result L :=
    if truthy fit_parameters then parameter_ll par_obj fit_parameters par delta else Ok lzero.
  (** likelihood.py 323-332 [log_likelihood] with the predictions supplied *)
  Definition log_likelihood (par_obj : cset P D) (fit_parameters : option (list P)) (m : ml)
      (reg : registry) (par pred : od P V) (excl : list P) (delta : bool) : result L :=
    do a <- log_prior par_obj fit_parameters par delta;
    do b <- log_likelihood_pred m reg pred excl delta;
    Ok (ladd a b).
End Likelihood.
Arguments ml : clear implicits.

(** ** Cached predictions, likelihood.py 138-156 *)
Section Cache.
  Context {Arg Pred : Type}.
  Variable hash : Arg -> Z.            (* hash((frozenset(par_dict.items()), wc_obj)) *)
  (** [compute w a]: the predictions of all observables at [a] while the rest of the program
      state (registered predictions, configured implementations) is [w]; may raise. *)
  Context {W : Type}.
  Variable compute : W -> Arg -> result Pred.

  (** the two cache attributes, always set together *)
  Definition cache : Type := option (Z * Pred).
  Definition cache0 : cache := None.

  (** likelihood.py 145-156 [get_predictions_par] *)
  Definition get_predictions (w : W) (a : Arg) (c : cache) : cache * result Pred :=
    let h := hash a in
    match c with
    | Some (h', v) =>
      if Z.eqb h h' then (c, Ok v)
      else match compute w a with Ok v' => (Some (h, v'), Ok v') | Err e => (c, Err e) end
    | None => match compute w a with Ok v' => (Some (h, v'), Ok v') | Err e => (c, Err e) end
    end.
  Definition cache_run (calls : list (W * Arg)) (c : cache) : cache :=
    fold_left (fun c wa => fst (get_predictions (fst wa) (snd wa) c)) calls c.
End Cache.

(** ** CPython hashes of numbers (language run-time; documented under sys.hash_info): an
    integral number [z] hashes to its remainder (with the sign of [z]) modulo 2^61-1, and -1,
    being the error code of the C API, is replaced by -2.  The hash of a frozenset of items
    is some function of the hashes of the items. *)
Definition py_hash_number (z : Z) : Z :=
  let r := Z.rem z 2305843009213693951 in if Z.eqb r (-1) then (-2)%Z else r.
Definition py_hash_items (key_hash : string -> Z) (comb : list (Z * Z) -> Z)
    (par : od string Z) : Z :=
  comb (map (fun kv => (key_hash (fst kv), py_hash_number (snd kv))) par).
