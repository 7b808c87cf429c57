(** * Model of Observable, Prediction, AuxiliaryQuantity, Implementation
    (flavio/classes.py 525-805)

    Numbers passed as observable arguments are values of an abstract type [A]; Python strings
    are Coq strings (a "character" is one byte).  The registries are those of Registry_Model
    for a single class, i.e. insertion-ordered dictionaries from names to objects; it is
    assumed that the registry exists (at least one object was created, true after import). *)
From Verif Require Import Base Constraints_Model ConstraintsIO_Model.
Set Implicit Arguments.

(** Values occurring in tuples and dictionaries that describe an observable. *)
Inductive pyval (A : Type) : Type := VStr (s : string) | VNum (a : A).
Arguments VStr {A} s.
Arguments VNum {A} a.
Definition pyval_eqb {A} `{Eqb A} (x y : pyval A) : bool :=
  match x, y with VStr s, VStr t => eqb s t | VNum a, VNum b => eqb a b | _, _ => false end.
Lemma pyval_eqb_spec {A} `{Eqb A} (x y : pyval A) : reflect (x = y) (pyval_eqb x y).
Proof.
  destruct x as [s|a], y as [t|b]; cbn; try (constructor; congruence).
  - destruct (eqb_spec s t); constructor; congruence.
  - destruct (eqb_spec a b); constructor; congruence.
Qed.
#[global] Instance Eqb_pyval {A} `{Eqb A} : Eqb (pyval A) := { eqb := pyval_eqb; eqb_spec := pyval_eqb_spec }.

(** ** argument_format, classes.py 566-617 *)
Section ArgumentFormat.
  Context {A : Type}.

  (** What a caller may pass: a string, a tuple or list, a dictionary, anything else. *)
  Inductive obs_in : Type :=
  | IStr (s : string)
  | ISeq (l : list (pyval A))
  | IDict (d : od string (pyval A))
  | IOther.
  Inductive obs_out : Type :=
  | OStr (s : string)
  | OTuple (l : list (pyval A))
  | OList (l : list (pyval A))
  | ODict (d : od string (pyval A))
  | ONone.
  Inductive fmt : Type := FTuple | FList | FDict | FOther.

  (** [cls\[n\].arguments] for a registry [args : name -> option (list of argument names)];
      a key that is not a registered string raises KeyError. *)
  Variable registry : od string (option (list string)).
  Definition lookup_args (n : pyval A) : result (option (list string)) :=
    match n with
    | VStr s => match od_get s registry with Some a => Ok a | None => Err KeyError end
    | VNum _ => Err KeyError
    end.

  (** [list(t)] for a string [t]: its characters. *)
  Fixpoint characters (s : string) : list (pyval A) :=
    match s with
    | EmptyString => []
    | String c s' => VStr (String c EmptyString) :: characters s'
    end.

  (** The value of the local variable [t] in line 604: a string or a tuple. *)
  Definition finish (f : fmt) (t : string + list (pyval A)) (d : od string (pyval A)) : obs_out :=
    match f with
    | FTuple => match t with inl s => OStr s | inr l => OTuple l end
    | FList => match t with inl s => OList (characters s) | inr l => OList l end
    | FDict => ODict d
    | FOther => ONone
    end.

  (** classes.py 601-603: [for i, a in enumerate(args): d\[a\] = obs\[i + 1\]] *)
  Definition dict_of_args (name : pyval A) (args : list string) (vals : list (pyval A))
    : od string (pyval A) :=
    od_update [("name"%string, name)] (combine args vals).

  Definition argument_format (o : obs_in) (f : fmt) : result obs_out :=
    match o with
    | IStr s =>
      do a <- lookup_args (VStr s);
      match a with
      | Some _ => Err ValueError
      | None => match f with FDict => Ok (ODict [("name"%string, VStr s)]) | _ => Ok (OStr s) end
      end
    | ISeq [] => Err IndexError
    | ISeq (n :: vals) =>
      do a <- lookup_args n;
      match a with
      | None => Err ValueError
      | Some args => if Nat.eqb (length args) (length vals)
                     then Ok (finish f (inr (n :: vals)) (dict_of_args n args vals))
                     else Err ValueError
      end
    | IDict d =>
      match od_get "name"%string d with
      | None => Err KeyError
      | Some n =>
        do a <- lookup_args n;
        match a with
        | None => match n with
                  | VStr s => Ok (finish f (inl s) d)
                  | VNum _ => Err KeyError      (* excluded by lookup_args *)
                  end
        | Some args =>
          do vals <- mapM (fun k => match od_get k d with Some v => Ok v | None => Err KeyError end) args;
          Ok (finish f (inr (n :: vals)) d)
        end
      end
    | IOther => match f with FOther => Ok ONone | _ => Err UnboundLocalError end
    end.
End ArgumentFormat.
Arguments obs_in : clear implicits.
Arguments obs_out : clear implicits.

(** ** Taxonomy, classes.py 530-540 and 629-646 *)

(** classes.py 530-534: [tree()], a nested defaultdict. *)
Inductive tree : Type := Node (children : list (string * tree)).
Definition children (t : tree) : od string tree := match t with Node l => l end.

(** classes.py 639-641: [for node in taxonomy_list: t = t\[node\]] (creating missing nodes) *)
Fixpoint insert_path (path : list string) (t : tree) : tree :=
  match path with
  | [] => t
  | n :: p => Node (od_set n (insert_path p (match od_get n (children t) with
                                             | Some c => c
                                             | None => Node []
                                             end)) (children t))
  end.

(** Python [str.split(sep)]: leftmost, non-overlapping.  [skip] = characters of the current
    separator still to be skipped; [cur] = current piece, reversed. *)
Fixpoint rev_string (s acc : string) : string :=
  match s with EmptyString => acc | String c s' => rev_string s' (String c acc) end.
Fixpoint split_go (sep : string) (skip : nat) (cur s : string) : list string :=
  match s with
  | EmptyString => [rev_string cur EmptyString]
  | String c s' =>
    match skip with
    | S k => split_go sep k cur s'
    | O => if String.prefix sep s
           then rev_string cur EmptyString :: split_go sep (String.length sep - 1) EmptyString s'
           else split_go sep 0 (String c cur) s'
    end
  end.
Definition split (sep s : string) : list string := split_go sep 0 EmptyString s.
Definition tax_sep : string := " :: "%string.

(** classes.py 629-641 [add_taxonomy] *)
Definition add_taxonomy (name taxonomy_string : string) (t : tree) : tree :=
  insert_path (split tax_sep taxonomy_string ++ [name]) t.

(** classes.py 537-539 [dicts], 643-646 [taxonomy_dict] *)
Fixpoint dicts (t : tree) : tree :=
  match t with
  | Node l => Node ((fix go l := match l with
                                 | [] => []
                                 | (k, c) :: l' => (k, dicts c) :: go l'
                                 end) l)
  end.
Definition taxonomy_dict (t : tree) : tree := dicts t.

(** ** Predictions and derived observables, classes.py 541-558, 619-627, 648-690, 747-768 *)
Section Derived.
  (** [E]: everything a prediction is evaluated at (Wilson coefficients, parameters,
      arguments); [V]: values. *)
  Context {E V : Type}.
  Definition pfun := E -> result V.
  Record obs : Type := mkObs { o_args : option (list string); o_pred : option pfun }.
  Definition world := od string obs.

  (** classes.py 545-552 [Observable.__init__] *)
  Definition new_observable (name : string) (args : option (list string)) (w : world) : world :=
    od_set name (mkObs args None) w.

  (** classes.py 750-758 [Prediction.__init__] *)
  Definition new_prediction (name : string) (f : pfun) (w : world) : world * result unit :=
    match od_get name w with
    | None => (w, Err ValueError)
    | Some o => (od_set name (mkObs (o_args o) (Some f)) w, Ok tt)
    end.

  (** [Observable\[n\].prediction.function] *)
  Definition pred_function (n : string) (w : world) : result pfun :=
    match od_get n w with
    | None => Err KeyError
    | Some o => match o_pred o with Some f => Ok f | None => Err AttributeError end
    end.

  (** classes.py 675-683: the checks in the loop *)
  Fixpoint check_inputs (first : string) (l : list string) (w : world) : result unit :=
    match l with
    | [] => Ok tt
    | n :: l' =>
      match od_get n w with
      | None => Err ValueError
      | Some o =>
        match od_get first w with
        | None => Err KeyError
        | Some o0 =>
          if eqb (o_args o) (o_args o0) then
            match o_pred o with
            | None => Err AssertionError
            | Some _ => check_inputs first l' w
            end
          else Err AssertionError
        end
      end
    end.

  (** classes.py 648-690 [from_function] (called on Observable itself) *)
  Definition from_function (name : string) (inputs : list string) (f : list V -> result V)
      (w : world) : world * result unit :=
    match inputs with
    | [] => (w, Err IndexError)
    | first :: _ =>
      match check_inputs first inputs w with
      | Err e => (w, Err e)
      | Ok _ =>
        match od_get first w with
        | None => (w, Err KeyError)
        | Some o0 =>
          let w1 := new_observable name (o_args o0) w in
          match mapM (fun n => pred_function n w1) inputs with
          | Err e => (w1, Err e)
          | Ok fs => new_prediction name (fun x => do vs <- mapM (fun g => g x) fs; f vs) w1
          end
        end
      end
    end.

  (** classes.py 622-627, 760-768: evaluating the prediction of an observable *)
  Definition predict (name : string) (w : world) (x : E) : result V :=
    do g <- pred_function name w; g x.

  Inductive oop : Type :=
  | NewObs (n : string) (args : option (list string))
  | NewPred (n : string) (f : pfun)
  | FromFun (n : string) (inputs : list string) (f : list V -> result V)
  | DelObs (n : string).
  Definition ostep (w : world) (o : oop) : world :=
    match o with
    | NewObs n a => new_observable n a w
    | NewPred n f => fst (new_prediction n f w)
    | FromFun n i f => fst (from_function n i f w)
    | DelObs n => od_pop n w
    end.
  Definition orun (ops : list oop) (w : world) : world := fold_left ostep ops w.
End Derived.
Arguments pfun : clear implicits.
Arguments obs : clear implicits.
Arguments world : clear implicits.
Arguments oop : clear implicits.

(** ** get_measurements, classes.py 692-704 *)
Section Measurements.
  Context {A D : Type} `{Eqb A} `{Eqb D}.

  (** classes.py 698-703: is one of the keys a tuple whose first entry is the name?
      [obs\[0\]] of an empty tuple raises. *)
  Fixpoint tuple_with (name : string) (ks : list (pkey (pyval A))) : result bool :=
    match ks with
    | [] => Ok false
    | KStr _ :: ks' => tuple_with name ks'
    | KTup [] :: _ => Err IndexError
    | KTup (v :: _) :: ks' => if eqb v (VStr name) then Ok true else tuple_with name ks'
    end.

  Fixpoint get_measurements (name : string) (ms : od string (cset (pkey (pyval A)) D))
    : result (list string) :=
    match ms with
    | [] => Ok []
    | (mname, m) :: ms' =>
      do hit <- (if memb (KStr name) (all_parameters m) then Ok true
                 else tuple_with name (all_parameters m));
      do rest <- get_measurements name ms';
      Ok (if hit : bool then mname :: rest else rest)
    end.
End Measurements.

(** ** Auxiliary quantities and implementations, classes.py 719-745, 771-805 *)
Section Implementations.
  Context {E V : Type}.
  (** An Implementation object; [None] = attribute not set (constructor failed half-way). *)
  Record impl : Type := mkImpl { i_quantity : option string; i_function : option (E -> result V);
                                 i_descr : string }.
  Record aux : Type := mkAux {
    quantities : list string;            (* names registered in AuxiliaryQuantity *)
    impls : od string impl;              (* Implementation.instances *)
    config : od string string            (* config['implementation'] *)
  }.

  (** classes.py 784-792 [Implementation.__init__]: registers, then checks the quantity. *)
  Definition new_implementation (name quantity : string) (f : E -> result V) (w : aux)
    : aux * result unit :=
    let w1 := mkAux (quantities w) (od_set name (mkImpl None None "") (impls w)) (config w) in
    if memb quantity (quantities w1)
    then (mkAux (quantities w1) (od_set name (mkImpl (Some quantity) (Some f) "") (impls w1)) (config w1), Ok tt)
    else (w1, Err ValueError).

  (** [AuxiliaryQuantity(name)], classes.py 726-728 *)
  Definition new_quantity (name : string) (w : aux) : aux :=
    mkAux (if memb name (quantities w) then quantities w else quantities w ++ [name]) (impls w) (config w).

  (** the user assigns [config\['implementation'\]\[quantity\] = name] *)
  Definition set_config (quantity name : string) (w : aux) : aux :=
    mkAux (quantities w) (impls w) (od_set quantity name (config w)).

  (** classes.py 730-735 [get_implementation], called on a registered quantity *)
  Definition get_implementation (quantity : string) (w : aux) : result impl :=
    match od_get quantity (config w) with
    | None => Err KeyError
    | Some i => match od_get i (impls w) with Some o => Ok o | None => Err KeyError end
    end.

  (** classes.py 741-743 and 803-805 *)
  Definition aux_prediction (quantity : string) (x : E) (w : aux) : result V :=
    do i <- get_implementation quantity w;
    match i_function i with Some f => f x | None => Err AttributeError end.

  (** classes.py 773-782 [show_all]; [inst.quantity] raises AttributeError if unset *)
  Fixpoint show_loop (acc : od string (od string string)) (l : od string impl)
    : result (od string (od string string)) :=
    match l with
    | [] => Ok acc
    | (name, i) :: l' =>
      match i_quantity i with
      | None => Err AttributeError
      | Some q => show_loop (od_set q [(name, i_descr i)] acc) l'
      end
    end.
  Definition show_all (w : aux) : result (od string (od string string)) := show_loop [] (impls w).
End Implementations.
Arguments impl : clear implicits.
Arguments aux : clear implicits.
