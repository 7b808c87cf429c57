(** * Specification: the mixing of a neutral meson with its antiparticle

    The states |M> and |anti-M> are coupled by the matrix with the off-diagonal elements
    M12 - i Gamma12 / 2 and M12* - i Gamma12* / 2. *)
From Coq Require Import Reals.
From Coquelicot Require Import Complex.
From Verif Require Import Base.
Set Implicit Arguments.
Local Open Scope C_scope.
Definition h12 (M G : C) : C := M - Ci * G / RtoC 2.
Definition h21 (M G : C) : C := Cconj M - Ci * Cconj G / RtoC 2.
(** the state p |M> + q |anti-M> is an eigenstate with the given complex energy *)
Definition eigenstate (M G p q energy : C) : Prop :=
  h12 M G * q = energy * p /\ h21 M G * p = energy * q /\ (p <> RtoC 0 \/ q <> RtoC 0).
Local Open Scope R_scope.
(** energy = mass - i width / 2, both relative to the diagonal *)
Definition mass (energy : C) : R := fst energy.
Definition width (energy : C) : R := - 2 * snd energy.
(** a phase *)
Definition unit (e : C) : Prop := Cmod e = 1.
(** the probabilities of wrong-flavour decays after mixing: |q/p|^2 for one initial state, |p/q|^2 for the other,
    and their asymmetry *)
Definition wrong_flavour_asymmetry (r : C) : R := (1 / Cmod r ^ 2 - Cmod r ^ 2) / (1 / Cmod r ^ 2 + Cmod r ^ 2).
