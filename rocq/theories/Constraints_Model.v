(** * Model of flavio.classes.Constraints (flavio/classes.py 112-466)

    The two data structures of the class (classes.py 123-137) are
    - [cons] = [_constraints]: list of (distribution, parameter list) in order of addition,
    - [pars] = [_parameters]: insertion-ordered dictionary parameter -> (position, distribution).

    Parameters/observables are values of a type [P] with decidable equality (strings, or
    tuples of a name and argument values).  Distributions are objects of a type [D] whose
    decidable equality is Python object identity (ProbabilityDistribution defines no __eq__).
    Everything a distribution computes is an oracle (section variable).

    Simplifications: the parameter list given to [add_constraint] is stored by value (Python
    stores the caller's list object); numbers are values of an abstract type [V]. *)
From Verif Require Import Base.
Set Implicit Arguments.

(** What numpy/scalar arrays are used by the class: 0-, 1- and 2-dimensional. *)
Inductive arr (V : Type) : Type :=
| A0 (v : V)
| A1 (l : list V)
| A2 (rows : list (list V)).
Arguments A0 {V} v.
Arguments A1 {V} l.
Arguments A2 {V} rows.

Section Constraints.
  Context {P D V L : Type} `{Eqb P} `{Eqb D}.

  Record cset : Type := mkC {
    cons : list (D * list P);
    pars : od P (nat * D)
  }.

  (** classes.py 118-138 [__init__] *)
  Definition empty : cset := mkC [] [].

  (** classes.py 140-143 [all_parameters] *)
  Definition all_parameters (s : cset) : list P := od_keys (pars s).

  (** classes.py 201-203 [remove_constraint]: pops the parameter, leaves [_constraints]. *)
  Definition remove_constraint (p : P) (s : cset) : cset :=
    mkC (cons s) (od_pop p (pars s)).

  (** classes.py 151-163, body of the loop of [add_constraint] for one parameter: with
      [is_parameter_constraint] an existing Parameter object triggers a removal first, a
      missing one is created ([reg] = names of existing Parameter objects); then any present
      constraint is removed and the new one stored (so the key moves to the end). *)
  Definition add_one (ipc : bool) (c : D) (st : list P * cset) (np : nat * P) : list P * cset :=
    let '(reg, s) := st in
    let '(num, p) := np in
    let '(reg1, s1) :=
      if ipc then
        if memb p reg then (reg, remove_constraint p s) else (reg ++ [p], s)
      else (reg, s) in
    let s2 := if od_mem p (pars s1) then remove_constraint p s1 else s1 in
    (reg1, mkC (cons s2) (od_set p (num, c) (pars s2))).

  (** [enumerate(l)] starting at [k] *)
  Fixpoint enum_from {A} (k : nat) (l : list A) : list (nat * A) :=
    match l with [] => [] | x :: l' => (k, x) :: enum_from (S k) l' end.
  Definition enumerate {A} (l : list A) : list (nat * A) := enum_from 0 l.

  (** classes.py 144-164 [add_constraint] *)
  Definition add_constraint (ipc : bool) (ps : list P) (c : D) (st : list P * cset)
    : list P * cset :=
    let '(reg, s) := fold_left (add_one ipc c) (enumerate ps) st in
    (reg, mkC (cons s ++ [(c, ps)]) (pars s)).

  (** ** Central values, classes.py 211-231 *)
  Variable is_str : P -> bool.          (* isinstance(parameter, str) *)
  Variable central_value : D -> arr V.  (* constraint.central_value *)

  (** classes.py 211-227 [get_central].  [float(cv)] succeeds for scalars and arrays with a
      single element.  The error message concatenates the parameter to a string, which is
      itself a TypeError if the parameter is a tuple (214).  A 2-dimensional central value
      does not occur. *)
  Definition get_central (p : P) (s : cset) : result V :=
    match od_get p (pars s) with
    | None => Err (if is_str p then ValueError else TypeError)
    | Some (num, c) =>
      match central_value c with
      | A0 v => if Nat.eqb num 0 then Ok v else Err ValueError
      | A1 [v] => if Nat.eqb num 0 then Ok v else Err ValueError
      | A1 l => match nth_error l num with Some v => Ok v | None => Err IndexError end
      | A2 _ => Err TypeError
      end
    end.

  (** classes.py 229-231 [get_central_all] *)
  Definition get_central_all (s : cset) : result (od P V) :=
    mapM (fun p => do v <- get_central p s; Ok (p, v)) (od_keys (pars s)).

  (** ** Random values, classes.py 233-259 *)

  (** [draw k c] is what the [k]-th call to [get_random] in this call returns when it is
      made on distribution [c] (the state of the generator is in [k]). *)
  Variable draw : nat -> D -> arr V.

  (** classes.py 240-241: dict comprehension over [_constraints]; for a distribution object
      listed twice the later draw overwrites the earlier one. *)
  Definition random_constraints (s : cset) : od D (arr V) :=
    od_of_list (map (fun kc => (fst (snd kc), draw (fst kc) (fst (snd kc)))) (enumerate (cons s))).

  (** classes.py 246-257, the case distinction on shapes for one parameter ([size] None or N) *)
  Definition pick (size : option nat) (num : nat) (carr : arr V) : result (arr V) :=
    match size with
    | None =>
      match carr with
      | A0 v => if Nat.eqb num 0 then Ok (A0 v) else Err IndexError
      | A1 l => match nth_error l num with Some v => Ok (A0 v) | None => Err IndexError end
      | A2 rows => match nth_error rows num with Some r => Ok (A1 r) | None => Err IndexError end
      end
    | Some n =>
      match carr with
      | A0 _ => Err ValueError
      | A1 l => if Nat.eqb (length l) n && Nat.eqb num 0 then Ok (A1 l) else Err ValueError
      | A2 rows => if Nat.eqb (length rows) n then
                     do col <- mapM (fun r => match nth_error r num with
                                              | Some v => Ok v | None => Err IndexError end) rows;
                     Ok (A1 col)
                   else Err ValueError
      end
    end.

  (** classes.py 242-259 [get_random_all] *)
  Definition get_random_all (size : option nat) (s : cset) : result (od P (arr V)) :=
    let rc := random_constraints s in
    mapM (fun pe => let '(p, (num, c)) := pe in
                    match od_get c rc with
                    | None => Err KeyError
                    | Some carr => do v <- pick size num carr; Ok (p, v)
                    end) (pars s).

  (** ** One-dimensional errors, classes.py 278-292 *)
  Variable error_left error_right : D -> arr V.

  (** [np.ravel(\[e\])\[num\]] for a scalar or a vector of errors *)
  Definition ravel_at (a : arr V) (num : nat) : result V :=
    match (match a with A0 v => nth_error [v] num | A1 l => nth_error l num
                      | A2 rows => nth_error (concat rows) num end) with
    | Some v => Ok v
    | None => Err IndexError
    end.

  (** classes.py 278-292 [get_1d_errors_rightleft] *)
  Definition get_1d_errors_rightleft (s : cset) : result (od P (V * V)) :=
    let errors_left := map (fun cp => error_left (fst cp)) (cons s) in
    let errors_right := map (fun cp => error_right (fst cp)) (cons s) in
    mapM (fun pe => let '(p, (num, c)) := pe in
            match index_of c (map fst (cons s)) with
            | None => Err ValueError
            | Some idx =>
              match nth_error errors_right idx, nth_error errors_left idx with
              | Some er, Some el => do r <- ravel_at er num; do l <- ravel_at el num;
                                    Ok (p, (r, l))
              | _, _ => Err IndexError
              end
            end) (pars s).

  (** ** Log-probabilities, classes.py 294-356 *)

  (** What is passed to [logpdf]/[delta_logpdf]: a scalar (keyword [exclude] absent), or a
      list of values with the keyword [exclude] ([None] or a tuple of positions). *)
  Inductive larg : Type :=
  | Scalar (v : V)
  | Vec (l : list V) (exclude : option (list nat)).
  (** [lp delta c arg] = [c.logpdf(..)] or [c.delta_logpdf(..)] if [delta] *)
  Variable lp : bool -> D -> larg -> L.

  (** positions [i] of [parameters] with [pred parameters\[i\]] *)
  Definition positions (pred : P -> bool) (ps : list P) : list nat :=
    map fst (filter (fun ip => pred (snd ip)) (enumerate ps)).

  (** classes.py 294-312 [get_logprobability_single]; [OrderedDict(self._constraints)] keeps
      the last parameter list of a distribution object listed twice. *)
  Definition get_logprobability_single (p : P) (v : V) (delta : bool) (s : cset) : result L :=
    match od_get p (pars s) with
    | None => Err KeyError
    | Some (num, c) =>
      match od_get c (od_of_list (cons s)) with
      | None => Err KeyError
      | Some ps =>
        if Nat.eqb (length ps) 1 then Ok (lp delta c (Scalar v))
        else Ok (lp delta c (Vec [v] (Some (positions (fun q => negb (eqb q p)) ps))))
      end
    end.

  (** classes.py 330-333: the parameters of this constraint that are not excluded and whose
      current constraint is this one at this position. *)
  Definition p_cons (excl : list P) (s : cset) (c : D) (ps : list P) : list P :=
    filter (fun p => negb (memb p excl) &&
              match index_of p ps with
              | Some i => eqb (Some (i, c)) (od_get p (pars s))
              | None => false
              end) ps.

  (** classes.py 329-355, body of the loop for one constraint *)
  Definition logprob_step (par_dict : od P V) (excl : list P) (delta : bool) (s : cset)
      (acc : od D L) (cp : D * list P) : result (od D L) :=
    let '(c, ps) := cp in
    let pc := p_cons excl s c ps in
    do x <- mapM (fun p => match od_get p par_dict with Some v => Ok v | None => Err KeyError end) pc;
    match x with
    | [] => Ok acc
    | x0 :: _ =>
      if Nat.eqb (length ps) 1 then Ok (od_set c (lp delta c (Scalar x0)) acc)
      else
        let exclude := if Nat.eqb (length x) (length ps) then None
                       else Some (positions (fun p => negb (memb p pc)) ps) in
        Ok (od_set c (lp delta c (Vec x exclude)) acc)
    end.

  Fixpoint foldM {A B} (f : A -> B -> result A) (l : list B) (a : A) : result A :=
    match l with [] => Ok a | b :: l' => do a' <- f a b; foldM f l' a' end.

  (** classes.py 314-356 [get_logprobability_all] *)
  Definition get_logprobability_all (par_dict : od P V) (excl : list P) (delta : bool)
      (s : cset) : result (od D L) :=
    foldM (logprob_step par_dict excl delta s) (cons s) [].

  (** ** Setting constraints from strings and dictionaries, classes.py 166-199 *)
  Context {Str Dic : Type}.
  Variable constraints_from_string : Str -> result (list D).
  Variable dict2dist : Dic -> result (list D).
  Variable convolve : list D -> result D.

  (** classes.py 187-199 [set_constraint] *)
  Definition set_constraint (p : P) (cstr : option Str) (cdict : option Dic)
      (s : cset) : cset * result unit :=
    match cstr, cdict with
    | Some _, Some _ => (s, Err ValueError)
    | None, None => (s, Err TypeError)
    | _, _ =>
      let pds := match cstr, cdict with
                 | Some x, _ => constraints_from_string x
                 | _, Some d => dict2dist d
                 | _, _ => Err TypeError
                 end in
      match (do l <- pds; convolve l) with
      | Err e => (s, Err e)
      | Ok d => (snd (add_constraint false [p] d ([], s)), Ok tt)
      end
    end.

  (** ** Histories of operations on one constraint set *)
  Inductive cop : Type :=
  | Add (ipc : bool) (ps : list P) (c : D)
  | Remove (p : P).

  Definition cstep (st : list P * cset) (o : cop) : list P * cset :=
    match o with
    | Add ipc ps c => add_constraint ipc ps c st
    | Remove p => (fst st, remove_constraint p (snd st))
    end.
  Definition crun (ops : list cop) (st : list P * cset) : list P * cset := fold_left cstep ops st.
  (** the constraint set after a history, starting from a new object; [reg] = existing
      Parameter objects at that time *)
  Definition after (reg : list P) (ops : list cop) : cset := snd (crun ops (reg, empty)).
End Constraints.
Arguments cset : clear implicits.
Arguments cop : clear implicits.
Arguments larg : clear implicits.
