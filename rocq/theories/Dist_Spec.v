(** * What is expected of the univariate distributions *)
From Coq Require Import Reals.
From Verif Require Import Base Dist_Model.
Set Implicit Arguments.
Local Open Scope R_scope.

(** the density of a Gaussian with mean [mu] and standard deviation [s], and its logarithm *)
Definition gauss (x mu s : R) : R := exp (- (x - mu) ^ 2 / s ^ 2 / 2) / (sqrt (2 * PI) * s).
Definition gauss_logpdf (x mu s : R) : R := - (x - mu) ^ 2 / s ^ 2 / 2 - ln (sqrt (2 * PI) * s).

Section Spec.
  Context {Num : Type}.
  Notation dist := (dist Num).

  (** a normal distribution with positive width *)
  Definition normal_ok (d : dist) : Prop := exists c s, d = Normal c s /\ 0 < s.
  Definition delta_or_normal (d : dist) : Prop := normal_ok d \/ exists c, d = Delta c.
  (** squared standard deviation and inverse variance *)
  Definition width (d : dist) : R := match d with Normal _ s => s | _ => 0 end.
  Definition var (d : dist) : R := width d ^ 2.
  Definition wt (d : dist) : R := 1 / width d ^ 2.

  (** neither normal nor delta; the normal ones *)
  Definition neither (d : dist) : bool := match d with Normal _ _ | Delta _ => false | _ => true end.
  Definition normalb (d : dist) : bool := match d with Normal _ _ => true | _ => false end.

  Definition in_interval (x : R) (i : R * R) : Prop := fst i <= x <= snd i.

  (** the parameters allowed by the documentation *)
  Definition documented (d : dist) : Prop :=
    match d with
    | Uniform _ h => 0 < h
    | DiscreteUniform lo hi c => (lo <= c <= hi)%Z
    | Delta _ => True
    | Normal _ s => 0 < s
    | LogNormal c f => c <> 0 /\ 1 < f
    | AsymmetricNormal _ r l => 0 < r /\ 0 < l
    | HalfNormal _ s => s <> 0
    | GaussianUpperLimit limit cl s => 0 < limit /\ 0 < cl < 1 /\ s <> 0
    | _ => False
    end.
  (** normal-type distributions, whose central value is the mode, or flat ones *)
  Definition unimodal (d : dist) : Prop :=
    match d with LogNormal _ _ => False | _ => documented d end.
End Spec.

(** minus infinity or a non-positive number *)
Definition not_positive (e : ext) : Prop := e = NegInf \/ exists r, e = Fin r /\ r <= 0.

(** What scipy's functions are assumed to satisfy where a theorem says so *)
Definition normal_quantiles (ppf cdf : R -> R) : Prop :=
  (forall q, 0 < q < 1 -> cdf (ppf q) = q) /\ (forall q, 1 / 2 < q < 1 -> 0 < ppf q).
Definition gamma_functions (ppf cdf : R -> R -> R -> R -> R) : Prop :=
  (forall a loc scale q, 0 < a -> 0 < scale -> 0 <= q < 1 -> cdf a loc scale (ppf a loc scale q) = q) /\
  (forall a loc scale x, 0 < a -> 0 < scale -> 0 <= cdf a loc scale x < 1) /\
  (forall a loc scale k x, 0 < k -> 0 < scale -> cdf a (loc * k) (scale * k) (x * k) = cdf a loc scale x).
