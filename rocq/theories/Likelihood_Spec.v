(** * Independent specification of likelihoods *)
From Verif Require Import Base Constraints_Model Constraints_Spec Likelihood_Model.
Set Implicit Arguments.

(** Names reserved for pseudo-measurements. *)
Definition pseudo_name (n : string) : Prop :=
  n = "Pseudo-measurement"%string \/ exists r, n = ("Pseudo-measurement " ++ r)%string.

Section Spec.
  Context {P D V L : Type} `{Eqb P} `{Eqb D}.

  (** measurement registry given by the history of each measurement *)
  Definition built (reg : od string (list (cop P D))) : od string (cset P D) :=
    map (fun nh => (fst nh, after [] (snd nh))) reg.

  (** The measurement [n] with history [h] takes part in the likelihood [m]. *)
  Definition takes_part (m : ml P) (n : string) (h : list (cop P D)) : Prop :=
    (pseudo_name n -> include_pseudo m = true) /\
    (exists o, In o (observables m) /\ current (rev h) o <> None) /\
    (forall ex, exclude_measurements m = Some ex -> ~ In n ex) /\
    (forall inc, include_measurements m = Some inc -> In n inc).

  (** an observable that counts: in the likelihood and not excluded *)
  Definition wanted (m : ml P) (excl : list P) (p : P) : bool :=
    memb p (observables m) && negb (memb p excl).

  (** the log-values one measurement contributes at predictions [val] *)
  Definition measurement_terms (lp : bool -> D -> larg V -> L) (delta : bool) (val : P -> V)
      (want : P -> bool) (h : list (cop P D)) : list L :=
    flat_map (fun cp => map snd (contribution lp delta val (rev h)
                                   (filter (fun p => negb (want p)) (snd cp)) cp)) (additions h).

  (** (measurement, observable) pairs that count as observations *)
  Definition observations (m : ml P) (excl : list P) (part : string * list (cop P D) -> bool)
      (reg : od string (list (cop P D))) : list (string * P) :=
    flat_map (fun nh => map (fun o => (fst nh, o))
       (filter (fun o => wanted m excl o && match current (rev (snd nh)) o with Some _ => true | None => false end)
          (dedup (observables m)))) (filter part reg).
End Spec.

(** Sums form a commutative monoid. *)
Record comm_monoid {L : Type} (z : L) (add : L -> L -> L) : Prop := {
  add_assoc : forall a b c, add a (add b c) = add (add a b) c;
  add_comm : forall a b, add a b = add b a;
  add_zero : forall a, add z a = a
}.

(** The measurement with history [h] constrains [o] by a distribution that was added for
    [p] as well. *)
Definition correlates {P D} `{Eqb P} `{Eqb D} (h : list (cop P D)) (o p : P) : bool :=
  match current (rev h) o with
  | Some (_, d) => existsb (fun cp => eqb (fst cp) d && memb p (snd cp)) (additions h)
  | None => false
  end.
(** how often [o] is listed for [p] in a dictionary of lists *)
Definition listed {P} `{Eqb P} (o p : P) (d : od P (list P)) : nat :=
  length (filter (eqb o) (match od_get p d with Some l => l | None => [] end)).
