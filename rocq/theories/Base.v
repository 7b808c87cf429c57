(** * Python run-time vocabulary shared by all models

    Not a model of a particular flavio file: it fixes how the Python objects that all
    modelled functions use (exceptions, [OrderedDict]/[dict], [set], [list.index]) are
    represented.  Since Python 3.7 plain dictionaries iterate in insertion order, so
    [dict] and [collections.OrderedDict] share the representation [od]. *)

From Coq Require Export String Bool Arith ZArith Lia List.
Export ListNotations.
Set Implicit Arguments.

(** Exceptions that modelled code raises (the class only; messages are dropped). *)
Inductive exc : Type :=
| KeyError | ValueError | TypeError | AttributeError | IndexError
| AssertionError | NotImplementedError | UnboundLocalError | VolInvalid | NameError | ZeroDivisionError.

(** A call either returns or raises. *)
Inductive result (A : Type) : Type :=
| Ok (a : A)
| Err (e : exc).
Arguments Ok {A} a.
Arguments Err {A} e.

Definition bind {A B} (r : result A) (f : A -> result B) : result B :=
  match r with Ok a => f a | Err e => Err e end.
Notation "'do' x <- r ; k" := (bind r (fun x => k))
  (at level 200, x pattern, r at level 100, k at level 200).

(** [\[f x for x in l\]] where [f] may raise: stops at the first exception. *)
Fixpoint mapM {A B} (f : A -> result B) (l : list A) : result (list B) :=
  match l with
  | [] => Ok []
  | x :: xs => do y <- f x; do ys <- mapM f xs; Ok (y :: ys)
  end.

(** Types whose Python [==] is the identity of mathematical values. *)
Class Eqb (A : Type) := {
  eqb : A -> A -> bool;
  eqb_spec : forall x y, reflect (x = y) (eqb x y)
}.

Arguments eqb : simpl never.

#[global] Instance Eqb_nat : Eqb nat := { eqb := Nat.eqb; eqb_spec := Nat.eqb_spec }.
#[global] Instance Eqb_string : Eqb string :=
  { eqb := String.eqb; eqb_spec := String.eqb_spec }.
#[global] Instance Eqb_Z : Eqb Z := { eqb := Z.eqb; eqb_spec := Z.eqb_spec }.
#[global] Instance Eqb_bool : Eqb bool := { eqb := Bool.eqb; eqb_spec := Bool.eqb_spec }.

(** Equality of pairs, lists and options is component-wise (Python tuples/lists). *)
Definition pair_eqb {A B} `{Eqb A} `{Eqb B} (x y : A * B) : bool :=
  eqb (fst x) (fst y) && eqb (snd x) (snd y).
Lemma pair_eqb_spec {A B} `{Eqb A} `{Eqb B} (x y : A * B) : reflect (x = y) (pair_eqb x y).
Proof.
  destruct x as [a b], y as [c d]. unfold pair_eqb. cbn [fst snd].
  destruct (eqb_spec a c), (eqb_spec b d); constructor; congruence.
Qed.
#[global] Instance Eqb_pair {A B} `{Eqb A} `{Eqb B} : Eqb (A * B) :=
  { eqb := pair_eqb; eqb_spec := pair_eqb_spec }.

Fixpoint list_eqb {A} `{Eqb A} (x y : list A) : bool :=
  match x, y with
  | [], [] => true
  | a :: x', b :: y' => eqb a b && list_eqb x' y'
  | _, _ => false
  end.
Lemma list_eqb_spec {A} `{Eqb A} (x y : list A) : reflect (x = y) (list_eqb x y).
Proof.
  revert y; induction x as [|a x IH]; intros [|b y]; cbn [list_eqb];
    try (constructor; congruence).
  destruct (eqb_spec a b) as [e|ne]; cbn [andb].
  - destruct (IH y); constructor; congruence.
  - constructor; congruence.
Qed.
#[global] Instance Eqb_list {A} `{Eqb A} : Eqb (list A) :=
  { eqb := list_eqb; eqb_spec := list_eqb_spec }.

Definition option_eqb {A} `{Eqb A} (x y : option A) : bool :=
  match x, y with
  | Some a, Some b => eqb a b
  | None, None => true
  | _, _ => false
  end.
Lemma option_eqb_spec {A} `{Eqb A} (x y : option A) : reflect (x = y) (option_eqb x y).
Proof.
  destruct x as [a|], y as [b|]; cbn; try (constructor; congruence).
  destruct (eqb_spec a b); constructor; congruence.
Qed.
#[global] Instance Eqb_option {A} `{Eqb A} : Eqb (option A) :=
  { eqb := option_eqb; eqb_spec := option_eqb_spec }.

(** [x in l] *)
Definition memb {A} `{Eqb A} (x : A) (l : list A) : bool := existsb (eqb x) l.

(** [l.index(x)]: position of the first element equal to [x]. *)
Fixpoint index_of {A} `{Eqb A} (x : A) (l : list A) : option nat :=
  match l with
  | [] => None
  | y :: l' => if eqb x y then Some 0 else option_map S (index_of x l')
  end.

(** Insertion-ordered dictionaries. *)
Definition od (K V : Type) : Type := list (K * V).

Section OD.
  Context {K V : Type} `{Eqb K}.

  (** [d\[k\]] / [d.get(k)] *)
  Fixpoint od_get (k : K) (d : od K V) : option V :=
    match d with
    | [] => None
    | (k', v) :: d' => if eqb k k' then Some v else od_get k d'
    end.

  (** [d\[k\] = v]: overwrites in place, or appends a new key at the end. *)
  Fixpoint od_set (k : K) (v : V) (d : od K V) : od K V :=
    match d with
    | [] => [(k, v)]
    | (k', v') :: d' => if eqb k k' then (k', v) :: d' else (k', v') :: od_set k v d'
    end.

  (** [d.pop(k, None)] *)
  Fixpoint od_pop (k : K) (d : od K V) : od K V :=
    match d with
    | [] => []
    | (k', v') :: d' => if eqb k k' then d' else (k', v') :: od_pop k d'
    end.

  Definition od_keys (d : od K V) : list K := map fst d.
  Definition od_vals (d : od K V) : list V := map snd d.

  (** [k in d] *)
  Definition od_mem (k : K) (d : od K V) : bool :=
    match od_get k d with Some _ => true | None => false end.

  (** [d1.update(d2)] *)
  Definition od_update (d1 d2 : od K V) : od K V :=
    fold_left (fun d kv => od_set (fst kv) (snd kv) d) d2 d1.
  (** [OrderedDict(list of pairs)]: later duplicates overwrite. *)
  Definition od_of_list (l : list (K * V)) : od K V := od_update [] l.
End OD.

(** Removing duplicates, keeping first occurrences: the order in which a Python [set]
    or [dict.fromkeys] sees the elements of a list. *)
Fixpoint dedup {A} `{Eqb A} (l : list A) : list A :=
  match l with
  | [] => []
  | x :: l' => x :: filter (fun y => negb (eqb x y)) (dedup l')
  end.
