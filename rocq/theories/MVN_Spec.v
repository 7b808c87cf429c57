(** * Specification: the multivariate normal distribution *)
From Coq Require Import Reals ZArith.
From mathcomp Require Import all_ssreflect all_algebra.
From Verif Require Import RealField.
Set Implicit Arguments.
Unset Strict Implicit.
Unset Printing Implicit Defensive.
Import GRing.Theory.
Local Open Scope ring_scope.

(** symmetric and positive definite *)
Definition posdef n (s : 'M[R]_n) : Prop :=
  s^T = s /\ forall v : 'cV[R]_n, v <> 0 -> Rlt 0 ((v^T *m s *m v) 0 0).
(** the logarithm of the density of the normal distribution with mean [m], covariance [s] and precision matrix [p],
    the inverse of [s], at [x] *)
Definition log_density n (m : 'cV[R]_n) (s p : 'M[R]_n) (x : 'cV[R]_n) : R :=
  (- (INR n * ln (2 * PI) + ln (\det s) + ((x - m)^T *m p *m (x - m)) 0%R 0%R) / 2)%coqR.

(** [f] lists the positions from 0 to n-1 that are not in the list [ex] (with negative positions counted from the
    end), in their order *)
Definition remaining n m (ex : seq Z) (f : 'I_m -> 'I_n) : Prop :=
  (forall i j : 'I_m, (i < j)%N -> (f i < f j)%N) /\
  (forall k : 'I_n, (exists i, f i = k) <-> ~ (List.In (Z.of_nat k) ex \/ List.In (Z.sub (Z.of_nat k) (Z.of_nat n)) ex)).
