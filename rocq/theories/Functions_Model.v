(** * Model of flavio/functions.py (predictions' parameter tracking, error budget, SM
    covariance, combination of measurements, uncertainties)

    Numbers are values of an abstract type [V]; everything numpy computes from a list of
    predictions (np.std, np.cov) is an oracle.  Predictions may raise. *)
From Verif Require Import Base Observables_Model Constraints_Model Likelihood_Model.
Set Implicit Arguments.

(** ** AwareDict, functions.py 101-123 *)
Section Aware.
  Context {V R : Type}.

  (** Programs that work on parameter dictionaries.  Dictionaries are referred to by their
      number in order of creation; number 0 is the argument [par_dict]. *)
  Inductive prog : Type :=
  | Ret (r : R)
  | Raise (e : exc)
  | GetItem (h : nat) (k : string) (next : V -> prog)              (* par\[k\] *)
  | GetDefault (h : nat) (k : string) (dflt : V) (next : V -> prog) (* par.get(k, dflt) *)
  | CopyDict (h : nat) (next : prog)                               (* par.copy() *)
  | SetItem (h : nat) (k : string) (v : V) (next : prog)           (* par\[k\] = v *)
  | MapItems (h : nat) (f : string -> V -> V) (next : prog).       (* {k: f(k, v) for k, v in par.items()} *)

  Fixpoint set_nth {A} (n : nat) (a : A) (l : list A) : list A :=
    match l, n with
    | [], _ => []
    | _ :: l', 0 => a :: l'
    | x :: l', S n' => x :: set_nth n' a l'
    end.

  (** with ordinary dictionaries; a reference to a dictionary that does not exist is a NameError,
      here ValueError (it does not occur in well-formed programs) *)
  Fixpoint run_plain (heap : list (od string V)) (p : prog) : result R :=
    match p with
    | Ret r => Ok r
    | Raise e => Err e
    | GetItem h k next =>
      match nth_error heap h with
      | None => Err ValueError
      | Some d => match od_get k d with Some v => run_plain heap (next v) | None => Err KeyError end
      end
    | GetDefault h k dflt next =>
      match nth_error heap h with
      | None => Err ValueError
      | Some d => run_plain heap (next (match od_get k d with Some v => v | None => dflt end))
      end
    | CopyDict h next =>
      match nth_error heap h with None => Err ValueError | Some d => run_plain (heap ++ [d]) next end
    | SetItem h k v next =>
      match nth_error heap h with None => Err ValueError | Some d => run_plain (set_nth h (od_set k v d) heap) next end
    | MapItems h f next =>
      match nth_error heap h with
      | None => Err ValueError
      | Some d => run_plain (heap ++ [map (fun kv => (fst kv, f (fst kv) (snd kv))) d]) next
      end
    end.

  (** The objects of a run on an AwareDict: AwareDicts with their content and the attribute
      [d] (functions.py 105-109), and ordinary dictionaries. *)
  Inductive aobj : Type :=
  | Aware (content d : od string V)
  | Plain (content : od string V).
  Definition content (o : aobj) : od string V := match o with Aware c _ | Plain c => c end.
  Definition tracked_obj (o : aobj) : bool := match o with Aware _ _ => true | Plain _ => false end.

  (** functions.py 111-123: [__getitem__] records the key (even if it then raises); [get] and
      [items] are those of dict and record nothing; [copy] makes an AwareDict from the attribute
      [d] — not from the content — that shares the set [akeys]. *)
  Fixpoint run_aware (heap : list aobj) (akeys : list string) (p : prog) : result R * list string :=
    match p with
    | Ret r => (Ok r, akeys)
    | Raise e => (Err e, akeys)
    | GetItem h k next =>
      match nth_error heap h with
      | None => (Err ValueError, akeys)
      | Some o =>
        let akeys' := if tracked_obj o then akeys ++ [k] else akeys in
        match od_get k (content o) with Some v => run_aware heap akeys' (next v) | None => (Err KeyError, akeys') end
      end
    | GetDefault h k dflt next =>
      match nth_error heap h with
      | None => (Err ValueError, akeys)
      | Some o => run_aware heap akeys (next (match od_get k (content o) with Some v => v | None => dflt end))
      end
    | CopyDict h next =>
      match nth_error heap h with
      | None => (Err ValueError, akeys)
      | Some (Aware _ d) => run_aware (heap ++ [Aware d d]) akeys next
      | Some (Plain c) => run_aware (heap ++ [Plain c]) akeys next
      end
    | SetItem h k v next =>
      match nth_error heap h with
      | None => (Err ValueError, akeys)
      | Some (Aware c d) => run_aware (set_nth h (Aware (od_set k v c) d) heap) akeys next
      | Some (Plain c) => run_aware (set_nth h (Plain (od_set k v c)) heap) akeys next
      end
    | MapItems h f next =>
      match nth_error heap h with
      | None => (Err ValueError, akeys)
      | Some o => run_aware (heap ++ [Plain (map (fun kv => (fst kv, f (fst kv) (snd kv))) (content o))]) akeys next
      end
    end.

  (** functions.py 138-150 [get_dependent_parameters_sm]: [p] is the prediction, [central] the
      central values, [params] the names of existing Parameter objects *)
  Definition get_dependent_parameters_sm (params : list string) (central : od string V) (p : prog)
    : result (list string) :=
    let (r, akeys) := run_aware [Aware central central] [] p in
    do _ <- r; Ok (filter (fun k => memb k params) akeys).
End Aware.
Arguments prog : clear implicits.
Arguments aobj : clear implicits.

Definition get_item {V} (k : string) (d : od string V) : result V :=
  match od_get k d with Some v => Ok v | None => Err KeyError end.

(** ** sm_error_budget, functions.py 172-228 *)
Inductive bkey : Type := One (p : string) | Many (ps : list string).
Definition bkey_eqb (a b : bkey) : bool :=
  match a, b with One p, One q => eqb p q | Many p, Many q => eqb p q | _, _ => false end.
Lemma bkey_eqb_spec a b : reflect (a = b) (bkey_eqb a b).
Proof.
  destruct a, b; cbn; try (constructor; congruence);
    match goal with |- context [eqb ?x ?y] => destruct (eqb_spec x y) end; constructor; congruence.
Qed.
#[global] Instance Eqb_bkey : Eqb bkey := { eqb := bkey_eqb; eqb_spec := bkey_eqb_spec }.

Section Budget.
  Context {V D : Type} `{Eqb D}.
  Variable predict : od string V -> result V.       (* obs.prediction_par(par, wc_sm, ...) *)
  Variable relative_error : list V -> V -> V.       (* np.std(all_pred)/abs(pred_central) *)

  (** 199: [p -> id(default_parameters._parameters\[p\]\[1\])] *)
  Definition par_constraint (pars : od string (nat * D)) (dep : list string) : result (od string D) :=
    mapM (fun p => match od_get p pars with Some (_, c) => Ok (p, c) | None => Err KeyError end) dep.
  (** 200-202: [v\[value\].append(key)] *)
  Definition group_step (v : od D (list string)) (pc : string * D) : od D (list string) :=
    od_set (snd pc) (match od_get (snd pc) v with Some l => l | None => [] end ++ [fst pc]) v.
  Definition group (l : od string D) : od D (list string) := fold_left group_step l [].
  (** 209-213 *)
  Definition make_par_random (central : od string V) (keys : list string) (pr : od string V) : result (od string V) :=
    foldM (fun par k => do v <- get_item k pr; Ok (od_set k v par)) keys central.
  (** 222-225 *)
  Definition budget_key (p : list string) : bkey := match p with [x] => One x | _ => Many p end.
  (** 214-226, one group *)
  Definition budget_step (central : od string V) (random : list (od string V)) (pred_central : V)
      (acc : od bkey V) (p : list string) : result (od bkey V) :=
    do par_random_p <- mapM (make_par_random central p) random;
    do all_pred <- mapM predict par_random_p;
    Ok (od_set (budget_key p) (relative_error all_pred pred_central) acc).
  (** 186-228; [dep] is the set of dependent parameters in iteration order *)
  Definition sm_error_budget (pars : od string (nat * D)) (central : od string V) (random : list (od string V))
      (dep : list string) : result (od bkey V) :=
    do pred_central <- predict central;
    do pc <- par_constraint pars dep;
    foldM (budget_step central random pred_central) (od_vals (group pc)) [].
End Budget.

(** ** sm_covariance, functions.py 240-295 *)
Inductive par_vary : Type := PVstr (s : string) | PVlist (l : list string).
(** [k in par_vary]: for a string it is the substring test *)
Definition pv_mem (k : string) (pv : par_vary) : bool :=
  match pv with
  | PVstr s => match String.index 0 k s with Some _ => true | None => false end
  | PVlist l => memb k l
  end.
Section Cov.
  Context {V : Type}.
  (** 270-276 [par_random_some] *)
  Definition par_random_some (N : nat) (pv : par_vary) (random : od string (list V)) (central : od string V) : od string (list V) :=
    let par1 := map (fun kv => (fst kv, repeat (snd kv) N)) (filter (fun kv => negb (pv_mem (fst kv) pv)) central) in
    let par2 := filter (fun kv => pv_mem (fst kv) pv) random in
    od_update par1 par2.
  (** [{k: v\[i\] for k, v in par_random.items()}] *)
  Definition sample (i : nat) (d : od string (list V)) : result (od string V) :=
    mapM (fun kv => match nth_error (snd kv) i with Some v => Ok (fst kv, v) | None => Err IndexError end) d.
  Definition samples (N : nat) (d : od string (list V)) : result (list (od string V)) :=
    mapM (fun i => sample i d) (seq 0 N).
  (** 278-283: the parameter points of sm_covariance *)
  Definition cov_points (N : nat) (pv : par_vary) (random : od string (list V)) (central : od string V) : result (list (od string V)) :=
    match pv with
    | PVstr "all"%string => samples N random
    | _ => samples N (par_random_some N pv random central)
    end.
End Cov.

(** multiprocessing.Pool.map (functions.py 289-292, 75-81): the tasks finish in some order [sched];
    each puts its result in its own place; an exception of the task that fails first is raised. *)
Fixpoint pool_run {A B} (f : A -> result B) (l : list A) (sched : list nat) (slots : list (option B)) : result (list (option B)) :=
  match sched with
  | [] => Ok slots
  | i :: sched' =>
    match nth_error l i with
    | None => Err IndexError
    | Some a => do b <- f a; pool_run f l sched' (set_nth i (Some b) slots)
    end
  end.
Definition pool_map {A B} (f : A -> result B) (l : list A) (sched : list nat) : result (list B) :=
  do slots <- pool_run f l sched (repeat None (length l));
  mapM (fun o => match o with Some b => Ok b | None => Err ValueError end) slots.

Section CovRun.
  Context {V A : Type}.
  Variable registry : od string (option (list string)).
  Variable predict : string -> od string V -> od string (pyval A) -> result V. (* observable, par, keyword arguments *)

  (** functions.py 231-237 [get_prediction_sm] for one observable.  The second result is the list
      entry afterwards: 'dict' is returned unchanged by argument_format (classes.py 617), so that
      [pop('name')] changes the caller's dictionary. *)
  Definition get_prediction_sm (par : od string V) (obs : obs_in A) : result V * obs_in A :=
    match argument_format registry obs FDict with
    | Err e => (Err e, obs)
    | Ok (ODict d) =>
      match od_get "name"%string d with
      | Some (VStr n) => (predict n par (od_pop "name"%string d), match obs with IDict _ => IDict (od_pop "name"%string d) | _ => obs end)
      | _ => (Err KeyError, obs)
      end
    | Ok _ => (Err TypeError, obs)
    end.
  (** functions.py 230-237 [_get_prediction_array_sm] *)
  Fixpoint prediction_array (par : od string V) (obs_list : list (obs_in A)) : result (list V) * list (obs_in A) :=
    match obs_list with
    | [] => (Ok [], [])
    | o :: os =>
      let (r, o') := get_prediction_sm par o in
      match r with
      | Err e => (Err e, o' :: os)
      | Ok v => let (rs, os') := prediction_array par os in ((do vs <- rs; Ok (v :: vs)), o' :: os')
      end
    end.
  (** 286-287, [map(func_map, par_random)] in one process: the list is shared by all calls *)
  Fixpoint serial_predictions (points : list (od string V)) (obs_list : list (obs_in A)) : result (list (list V)) :=
    match points with
    | [] => Ok []
    | p :: ps => let (r, obs') := prediction_array p obs_list in
                 do v <- r; do vs <- serial_predictions ps obs'; Ok (v :: vs)
    end.
End CovRun.

(** ** np_uncertainty, functions.py 46-83 *)
Section Uncertainty.
  Context {V X : Type}.
  (** A Python call f(par, *args, **kwargs) of a function with parameters [par] and [params]
      without default values: the values of [params]. *)
  Definition bind_call (params : list string) (args : list X) (kwargs : od string X) : result (list X) :=
    if length params <? length args then Err TypeError
    else if existsb (fun kv => negb (memb (fst kv) (skipn (length args) params))) kwargs then Err TypeError
    else do rest <- mapM (fun k => match od_get k kwargs with Some v => Ok v | None => Err TypeError end)
                         (skipn (length args) params);
         Ok (args ++ rest).
  (** 68-71: positional arguments become keyword arguments; [obs_args] = arguments of the observable *)
  Definition args_to_kwargs (obs_args : option (list string)) (args : list X) (kwargs : od string X) : result (od string X) :=
    foldM (fun kw ia => match obs_args with
                        | None => Err TypeError
                        | Some names => match nth_error names (fst ia) with
                                        | Some a => Ok (od_set a (snd ia) kw)
                                        | None => Err IndexError
                                        end
                        end) (enumerate args) kwargs.
  (** the prediction of the observable as a function of the parameters and its argument values *)
  Variable params : list string.
  Variable f : od string V -> list X -> result V.
  Definition call (par : od string V) (args : list X) (kwargs : od string X) : result V :=
    do vs <- bind_call params args kwargs; f par vs.
  (** 62-64 *)
  Definition serial (points : list (od string V)) (args : list X) (kwargs : od string X) : result (list V) :=
    mapM (fun par => call par args kwargs) points.
  (** 66-81 *)
  Definition parallel (obs_args : option (list string)) (points : list (od string V)) (sched : list nat)
      (args : list X) (kwargs : od string X) : result (list V) :=
    do kw <- args_to_kwargs obs_args args kwargs;
    pool_map (fun par => call par [] kw) points sched.
End Uncertainty.

(** ** combine_measurements, functions.py 298-359 *)
Definition sum_eqb {A B} `{Eqb A} `{Eqb B} (x y : A + B) : bool :=
  match x, y with inl a, inl b => eqb a b | inr a, inr b => eqb a b | _, _ => false end.
Lemma sum_eqb_spec {A B} `{Eqb A} `{Eqb B} (x y : A + B) : reflect (x = y) (sum_eqb x y).
Proof.
  destruct x as [a|a], y as [b|b]; cbn; try (constructor; congruence);
    destruct (eqb_spec a b); constructor; congruence.
Qed.
#[global] Instance Eqb_sum {A B} `{Eqb A} `{Eqb B} : Eqb (A + B) :=
  { eqb := sum_eqb; eqb_spec := sum_eqb_spec }.

Section Combine.
  Context {A D : Type} `{Eqb A} `{Eqb D}.
  (** observables: a string or a tuple of a name and argument values *)
  Variable arguments : string -> result (option (list string)). (* Observable\[name\].arguments *)
  Variable dim : D -> option nat.                 (* None if np.isscalar(central_value), otherwise its length *)
  Variable reduce_dimension : D -> list nat -> D. (* reduce_dimension(exclude=...) *)
  Variable combine_distributions : list D -> result D.

  Notation obs := (string + list (pyval A))%type.

  (** 318-322; extra keyword arguments are ignored *)
  Definition combine_obs (observable : obs) (kwargs : od string (pyval A)) : result obs :=
    match kwargs, observable with
    | [], _ => Ok observable
    | _, inr _ => Err KeyError
    | _, inl name =>
      do args <- arguments name;
      match args with
      | None => Err TypeError
      | Some args => do vals <- mapM (fun a => get_item a kwargs) args; Ok (inr (VStr name :: vals))
      end
    end.
  (** 325-344, one measurement: what is appended to [constraints], and whether it is multivariate *)
  Definition combine_one (o : obs) (include : option (list string)) (nm : string * cset obs D) : list (D * bool) :=
    if is_pseudo (fst nm) then []
    else if match include with Some inc => negb (memb (fst nm) inc) | None => false end then []
    else match od_get o (pars (snd nm)) with
         | None => []
         | Some (num, c) =>
           match dim c with
           | None => [(c, false)]
           | Some n => [(reduce_dimension c (filter (fun i => negb (Nat.eqb i num)) (seq 0 n)), true)]
           end
         end.
  (** 323-359; the second component says whether a warning is issued *)
  Definition combine_measurements (reg : list (string * cset obs D)) (observable : obs)
      (include : option (list string)) (kwargs : od string (pyval A)) : result (D * bool) :=
    do o <- combine_obs observable kwargs;
    let l := flat_map (combine_one o include) reg in
    let warn := 1 <? length (filter snd l) in
    match map fst l with
    | [] => Err ValueError
    | [d] => Ok (d, warn)
    | ds => do d <- combine_distributions ds; Ok (d, warn)
    end.
End Combine.
