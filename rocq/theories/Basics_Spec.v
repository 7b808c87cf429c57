(** * Specification: unitary matrices, angles, chains of attempts *)
From Coq Require Import Reals.
From Coquelicot Require Import Complex.
From Verif Require Import Base.
Set Implicit Arguments.

Local Open Scope C_scope.
Definition delta (i j : nat) : C := if Nat.eqb i j then RtoC 1 else RtoC 0.
(** rows and columns are orthonormal *)
Definition unitary (V : nat -> nat -> C) : Prop :=
  (forall i j, (i < 3)%nat -> (j < 3)%nat ->
     V 0%nat i * Cconj (V 0%nat j) + V 1%nat i * Cconj (V 1%nat j) + V 2%nat i * Cconj (V 2%nat j) = delta i j) /\
  (forall k l, (k < 3)%nat -> (l < 3)%nat ->
     V k 0%nat * Cconj (V l 0%nat) + V k 1%nat * Cconj (V l 1%nat) + V k 2%nat * Cconj (V l 2%nat) = delta k l).
Definition conjugate (V : nat -> nat -> C) : nat -> nat -> C := fun k i => Cconj (V k i).
(** the quarks by name *)
Inductive up_quark : string -> nat -> Prop := up0 : up_quark "u" 0 | up1 : up_quark "c" 1 | up2 : up_quark "t" 2.
Inductive down_quark : string -> nat -> Prop := down0 : down_quark "d" 0 | down1 : down_quark "s" 1 | down2 : down_quark "b" 2.

Local Open Scope R_scope.
(** [t] is the angle of the complex number [z] in the plane *)
Definition is_angle (z : C) (t : R) : Prop :=
  - PI < t <= PI /\ fst z = Cmod z * cos t /\ snd z = Cmod z * sin t.

(** The attempts of a robust minimisation: for every try, the methods in order, without MIGRAD if it is not
    available *)
Definition attempts (iminuit : bool) (methods : list string) (tries : nat) : list string :=
  concat (repeat (filter (fun m => negb (String.eqb m "MIGRAD") || iminuit) methods) tries).

(** the sum of the values of a key over dictionaries *)
Fixpoint total (k : string) (l : list (od string R)) : R :=
  match l with [] => 0 | d :: l => match od_get k d with Some x => x | None => 0 end + total k l end.

(** the standard parametrisation of the CKM matrix *)
Definition cis (t : R) : C := (cos t, sin t).
Definition standard (t12 t13 t23 d : R) (k i : nat) : C :=
  let c := fun t => RtoC (cos t) in let s := fun t => RtoC (sin t) in
  match k, i with
  | 0%nat, 0%nat => c t12 * c t13
  | 0%nat, 1%nat => s t12 * c t13
  | 0%nat, 2%nat => s t13 * cis (- d)
  | 1%nat, 0%nat => - (s t12 * c t23) - c t12 * s t23 * s t13 * cis d
  | 1%nat, 1%nat => c t12 * c t23 - s t12 * s t23 * s t13 * cis d
  | 1%nat, 2%nat => s t23 * c t13
  | 2%nat, 0%nat => s t12 * s t23 - c t12 * c t23 * s t13 * cis d
  | 2%nat, 1%nat => - (c t12 * s t23) - s t12 * c t23 * s t13 * cis d
  | 2%nat, 2%nat => c t23 * c t13
  | _, _ => RtoC 0
  end%C.
