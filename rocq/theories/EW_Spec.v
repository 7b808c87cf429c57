(** * Specification for electroweak observables: independent of the code's formulas *)
From Coq Require Import Reals List.
From Coquelicot Require Import Coquelicot.
From Verif Require Import Base EW_Model.
Import ListNotations.
Local Open Scope R_scope.

(** tree-level relation between the Fermi constant, the fine-structure constant and the Z mass: s and co are sine and cosine of an angle below 45 degrees *)
Definition tree (p : ewpar) (s co : R) : Prop :=
  0 < p_GF p /\ 0 < p_mZ p /\ 0 < s /\ s < co /\ s ^ 2 + co ^ 2 = 1 /\ s ^ 2 * co ^ 2 * (sqrt 2 * p_GF p * p_mZ p ^ 2) = PI * p_alpha p.

(** new physics added to given coefficients; no new physics *)
Definition plus (c d : wcs) : wcs := fun k => (c k + d k)%C.
Definition nonp : wcs := fun _ => RtoC 0.
(** all coefficients multiplied by a number *)
Definition scale (t : R) (c : wcs) : wcs := fun k => (RtoC t * c k)%C.

(** the two combinations of dimension-6 operators that the equations of motion of the B and W fields turn into operators without fermions: currents
    with the hypercharges of the fermion multiplets (Higgs: 1/2), and the left-handed triplet currents, flavour universal *)
Definition diag (i j : nat) (x : R) : C := if Nat.eqb i j then RtoC x else RtoC 0.
Definition flatB (s co b : R) : wcs := fun k =>
  match k with
  | phil1 i j => diag i j (- (1 / 2) * b) | phie i j => diag i j (- 1 * b) | phiq1 i j => diag i j (1 / 6 * b)
  | phiu i j => diag i j (2 / 3 * b) | phid i j => diag i j (- (1 / 3) * b)
  | phiD => RtoC (2 * b) | phiWB => RtoC (- (co / (2 * s)) * b)
  | _ => RtoC 0 end.
Definition flatW (s co b : R) : wcs := fun k =>
  match k with
  | phil3 i j => diag i j b | phiq3 i j => diag i j b
  | phiWB => RtoC (- (s / co) * b)
  | _ => RtoC 0 end.

Definition charge (f : fermion) : R := match f with Fe | Fmu | Ftau => -1 | Fnue | Fnumu | Fnutau => 0 | Fu | Fc => 2 / 3 | _ => - (1 / 3) end.
Definition isospin (f : fermion) : R := match f with Fe | Fmu | Ftau | Fd | Fs | Fb => - (1 / 2) | _ => 1 / 2 end.
Definition colours (f : fermion) : R := match f with Fu | Fc | Fd | Fs | Fb => 3 | _ => 1 end.
(** same charge, isospin and colour: the pairs of fermions a Z can decay to *)
Definition alike (f1 f2 : fermion) : Prop := charge f1 = charge f2 /\ colours f1 = colours f2.
Definition neutrino (f : fermion) : Prop := charge f = 0.
(** effective weak mixing angle in the SM: 1.0065 s2w for b quarks and 1.0010 s2w for all others *)
Definition sin2eff (p : ewpar) (f : fermion) : R := p_s2w p * match f with Fb => 10065 / 10000 | _ => 10010 / 10000 end.

(** unitarity of the CKM matrix: rows of length one *)
Definition rows_normalised (V : nat -> nat -> C) : Prop :=
  forall i, (i < 2)%nat -> Cmod (V i 0%nat) ^ 2 + Cmod (V i 1%nat) ^ 2 + Cmod (V i 2%nat) ^ 2 = 1.

(** coefficients of the left- and right-handed fermion currents between two fermions of the same charge, in terms of the operators with lower index first:
    the triplet operators couple with opposite signs to the two components of a doublet *)
Definition gen (f : fermion) : nat := match f with Fe | Fnue | Fu | Fd => 1 | Fmu | Fnumu | Fc | Fs => 2 | Ftau | Fnutau | Fb => 3 end.
Definition at_ (c : wcs) (k : nat -> nat -> wkey) (f1 f2 : fermion) : C := c (k (Nat.min (gen f1) (gen f2)) (Nat.max (gen f1) (gen f2))).
Definition leftcur (c : wcs) (f1 f2 : fermion) : C :=
  match f1 with
  | Fe | Fmu | Ftau => at_ c phil1 f1 f2 + at_ c phil3 f1 f2
  | Fnue | Fnumu | Fnutau => at_ c phil1 f1 f2 - at_ c phil3 f1 f2
  | Fu | Fc => at_ c phiq1 f1 f2 - at_ c phiq3 f1 f2
  | Fd | Fs | Fb => at_ c phiq1 f1 f2 + at_ c phiq3 f1 f2 end%C.
Definition rightcur (c : wcs) (f1 f2 : fermion) : C :=
  match f1 with
  | Fe | Fmu | Ftau => at_ c phie f1 f2
  | Fnue | Fnumu | Fnutau => RtoC 0
  | Fu | Fc => at_ c phiu f1 f2
  | Fd | Fs | Fb => at_ c phid f1 f2 end.
Definition triplet (c : wcs) (f1 f2 : fermion) : C := match f1 with Fe | Fmu | Ftau => at_ c phil3 f1 f2 | _ => at_ c phiq3 f1 f2 end.
