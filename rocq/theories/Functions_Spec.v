(** * Independent specification for flavio/functions.py *)
From Verif Require Import Base Observables_Model Constraints_Model Constraints_Spec Likelihood_Model Likelihood_Spec Functions_Model.
From Coq Require Export Permutation.
Set Implicit Arguments.

(** Programs that read parameters by indexing only ([par\[k\]]), may copy dictionaries they have
    not changed, and may assign to dictionaries ([changed] says which of the dictionaries made so
    far have been assigned to). *)
Fixpoint indexing_only {V R} (changed : list bool) (p : prog V R) : Prop :=
  match p with
  | Ret _ | Raise _ => True
  | GetItem _ _ next => forall v, indexing_only changed (next v)
  | CopyDict h next => nth_error changed h = Some false /\ indexing_only (changed ++ [false]) next
  | SetItem h _ _ next => indexing_only (set_nth h true changed) next
  | GetDefault _ _ _ _ | MapItems _ _ _ => False
  end.

(** the dictionary key under which the error of a group of parameters is reported *)
Definition reported_as (k : bkey) (g : list string) : Prop :=
  match k with One p => g = [p] | Many ps => g = ps /\ length g <> 1 end.

(** [par] is [central] with the parameters of [g] replaced by their values in the draw [pr] *)
Definition varied {V} (central : od string V) (g : list string) (pr par : od string V) : Prop :=
  forall k, (In k g -> od_get k par = od_get k pr) /\ (~ In k g -> od_get k par = od_get k central).

(** Observables given in the documented forms, as a name or a tuple. *)
Definition documented_form {A} (o : obs_in A) : Prop := match o with IDict _ => False | _ => True end.

(** [d] is the constraint [c] reduced to its component [i] *)
Definition one_dimensional {D} (dim : D -> option nat) (reduce_dimension : D -> list nat -> D)
    (c : D) (i : nat) (d : D) : Prop :=
  match dim c with
  | None => d = c
  | Some n => exists excluded, d = reduce_dimension c excluded /\
                NoDup excluded /\ forall j, In j excluded <-> j < n /\ j <> i
  end.

(** A measurement (name, history) that combine_measurements must use. *)
Definition usable {P D} `{Eqb P} `{Eqb D} (o : P) (include : option (list string)) (nh : string * list (cop P D)) : Prop :=
  ~ pseudo_name (fst nh) /\ (forall inc, include = Some inc -> In (fst nh) inc) /\
  current (rev (snd nh)) o <> None.

(** What a documented observable specification means: the observable [n] at the keyword
    arguments [kw]. *)
Definition means {A} (registry : od string (option (list string))) (o : obs_in A) (nk : string * od string (pyval A)) : Prop :=
  (o = IStr (fst nk) /\ od_get (fst nk) registry = Some None /\ snd nk = []) \/
  exists args vals, o = ISeq (VStr (fst nk) :: vals) /\ od_get (fst nk) registry = Some (Some args) /\
    length args = length vals /\ NoDup args /\ ~ In "name"%string args /\ snd nk = combine args vals.
