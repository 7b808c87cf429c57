(** * Model of the experimental average (flavio/statistics/likelihood.py 459-532,
    MeasurementCovariance.compute)

    The sample mean and sample covariance of each measurement (474-481: numpy.mean, numpy.cov
    of random draws) are data of the model; real numbers are elements of a field.  An
    observable that a measurement does not constrain has infinite variance and no
    covariances (482-486).  [numpy.linalg.inv] of such a matrix: the infinite entry decouples
    and its inverse is 0, see [weight_limit] in Average_Proofs for the justification. *)
From mathcomp Require Import all_ssreflect all_algebra.
Set Implicit Arguments.
Unset Strict Implicit.
Unset Printing Implicit Defensive.
Import GRing.Theory.
Local Open Scope ring_scope.

Section Average.
  Variables (F : fieldType) (n : nat).

  (** one measurement: sample mean, sample covariance, and which of the observables of the
      likelihood it constrains ([our_obs], line 469) *)
  Record meas := Meas { mean : 'cV[F]_n; cov : 'M[F]_n; has : pred 'I_n }.

  (** 482-486: the covariance with [v] on the diagonal of the missing observables *)
  Definition masked (v : F) (m : meas) : 'M[F]_n :=
    \matrix_(i, j) if has m i && has m j then cov m i j else if i == j then v else 0.

  (** 517 [np.linalg.inv(c)] with [v = inf] *)
  Definition weight (m : meas) : 'M[F]_n :=
    \matrix_(i, j) if has m i && has m j then invmx (masked 1 m) i j else 0.

  (** 518 *)
  Definition weighted_covariance (ms : seq meas) : 'M[F]_n := invmx (\sum_(m <- ms) weight m).
  (** 519-521 *)
  Definition weighted_mean (ms : seq meas) : 'cV[F]_n :=
    weighted_covariance ms *m \sum_(m <- ms) (weight m *m mean m).

  (** 488-496, 515-522: a single measurement is returned as is *)
  Definition compute (ms : seq meas) : 'cV[F]_n * 'M[F]_n :=
    if ms is [:: m] then (mean m, masked 0 m)
    else (weighted_mean ms, weighted_covariance ms).
End Average.

Section Scalar.
  Variable F : fieldType.
  (** 510-514: one observable, several measurements, given as (mean, variance) *)
  Definition compute1 (ms : seq (F * F)) : F * F :=
    if ms is [:: m] then m
    else let w := (\sum_(m <- ms) m.2^-1)^-1 in (w * \sum_(m <- ms) (m.2^-1 * m.1), w).
End Scalar.
