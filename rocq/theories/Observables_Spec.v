(** * Independent specifications for observables, taxonomies and implementations *)
From Verif Require Import Base Constraints_Model ConstraintsIO_Model Constraints_Spec Observables_Model.
Set Implicit Arguments.

(** A path of categories exists in a (nested-dictionary) taxonomy. *)
Fixpoint has_path (path : list string) (t : tree) : Prop :=
  match path with
  | [] => True
  | n :: p => exists c, In (n, c) (children t) /\ has_path p c
  end.
Definition is_prefix (p q : list string) : Prop := exists r, q = p ++ r.

(** No character of the string is a colon. *)
Fixpoint no_colon (s : string) : Prop :=
  match s with
  | EmptyString => True
  | String c s' => c <> Ascii.ascii_of_nat 58 /\ no_colon s'
  end.

(** A measurement key concerns the observable [name]: the bare name or a tuple starting
    with it. *)
Definition concerns {A} (name : string) (k : pkey (pyval A)) : Prop :=
  match k with
  | KStr s => s = name
  | KTup (VStr s :: _) => s = name
  | KTup _ => False
  end.

(** Histories of creating observables: what the operation is about. *)
Definition target {E V} (o : oop E V) : string :=
  match o with NewObs n _ => n | NewPred n _ => n | FromFun n _ _ => n | DelObs n => n end.

(** Histories of auxiliary quantities, newest first. *)
Section AuxSpec.
  Context {E V : Type}.
  Inductive aop : Type :=
  | AQuant (q : string)
  | AImpl (name q : string) (f : E -> result V)
  | AConf (q name : string).
  Definition astep (w : aux E V) (o : aop) : aux E V :=
    match o with
    | AQuant q => new_quantity q w
    | AImpl n q f => fst (new_implementation n q f w)
    | AConf q n => set_config q n w
    end.
  Definition arun (ops : list aop) : aux E V := fold_left astep ops (mkAux [] [] []).

  (** the name last configured for a quantity *)
  Fixpoint configured (hist : list aop) (q : string) : option string :=
    match hist with
    | [] => None
    | AConf q' n :: h => if eqb q q' then Some n else configured h q
    | _ :: h => configured h q
    end.
  (** was the quantity created in the history? *)
  Definition declared (hist : list aop) (q : string) : bool :=
    existsb (fun o => match o with AQuant q' => eqb q q' | _ => false end) hist.
  (** the function last given to an implementation name; [Some None]: that last attempt
      was rejected because its quantity had not been declared before *)
  Fixpoint implemented (hist : list aop) (n : string) : option (option (E -> result V)) :=
    match hist with
    | [] => None
    | AImpl n' q f :: h => if eqb n n' then Some (if declared h q then Some f else None)
                           else implemented h n
    | _ :: h => implemented h n
    end.
End AuxSpec.
Arguments aop : clear implicits.
