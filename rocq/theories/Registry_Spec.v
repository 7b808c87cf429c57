(** * Independent specification of a named registry: functions of the history only *)
From Verif Require Import Base Registry_Model.
Set Implicit Arguments.

Section Spec.
  Context {Obj : Type}.

  Definition class_of (o : @op Obj) : cls :=
    match o with Create c _ _ => c | Get c _ => c | Del c _ => c | Clear c => c end.

  (** What happens to the registry of one class. *)
  Inductive ev : Type := ECreate (n : string) (o : Obj) | EGet (n : string) | EDel (n : string) | EClear.

  (** The object a name stands for after a history (newest event first): the one most
      recently created under it, unless it was deleted or cleared since. *)
  Fixpoint latest (hist : list ev) (n : string) : option Obj :=
    match hist with
    | [] => None
    | EClear :: _ => None
    | EDel m :: hist' => if eqb n m then None else latest hist' n
    | EGet _ :: hist' => latest hist' n
    | ECreate m o :: hist' => if eqb n m then Some o else latest hist' n
    end.

  (** Index of the operation by which the name last became present. *)
  Fixpoint birth (hist : list ev) (n : string) : option nat :=
    match hist with
    | [] => None
    | EClear :: _ => None
    | EDel m :: hist' => if eqb n m then None else birth hist' n
    | EGet _ :: hist' => birth hist' n
    | ECreate m o :: hist' =>
      if eqb n m then match birth hist' n with
                      | Some i => Some i
                      | None => Some (length hist')
                      end
      else birth hist' n
    end.

  (** Was the registry ever created (by a first instance or by clearing)? *)
  Fixpoint touched (hist : list ev) : bool :=
    match hist with
    | [] => false
    | EGet _ :: l => touched l
    | EDel _ :: l => touched l
    | _ => true
    end.

  Definition to_ev (o : @op Obj) : ev :=
    match o with Create _ n x => ECreate n x | Get _ n => EGet n | Del _ n => EDel n | Clear _ => EClear end.

  (** The events that concern class [c] in a history of operations over all classes. *)
  Definition events_of (c : cls) (ops : list (@op Obj)) : list ev :=
    map to_ev (filter (fun o => eqb c (class_of o)) ops).
End Spec.

(** A flat hierarchy: every class inherits only from one common base (class 0), on which no
    operation is ever performed — the situation in flavio, where Parameter, Observable,
    AuxiliaryQuantity, Implementation, Measurement (classes.py 79, 537, 721, 771, 808) and
    FastLikelihood (likelihood.py 534) derive directly from NamedInstanceClass. *)
Definition flat_mro (c : cls) : list cls := [c; 0].
