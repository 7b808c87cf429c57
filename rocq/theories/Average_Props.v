(** * Property C25: the experimental average is the product of Gaussians *)
From Coq Require Import List Permutation.
From mathcomp Require Import all_ssreflect all_algebra.
From Verif Require Import Average_Model Average_Proofs.
Set Implicit Arguments.
Unset Strict Implicit.
Unset Printing Implicit Defensive.
Import GRing.Theory.
Local Open Scope ring_scope.

(** C25, any number of observables: minus twice the log of the product of the individual
    Gaussians is, up to a constant, that of the Gaussian with the returned mean and
    covariance.  (A single measurement must constrain all observables, which the
    constructor of MeasurementLikelihood checks; for two or more, the sum of the weights
    must be invertible, i.e. every observable is constrained.) *)
Theorem C25_average_is_product :
  forall (F : fieldType) (n : nat) (ms : seq (meas F n)),
    List.Forall (fun m => (cov m)^T = cov m) ms -> \sum_(m <- ms) weight m \in unitmx ->
    (forall m, ms = [:: m] -> forall i, has m i) ->
    (compute ms).2 \in unitmx /\
    exists const, forall x : 'cV[F]_n,
      \sum_(m <- ms) quad (weight m) (x - mean m) = quad (invmx (compute ms).2) (x - (compute ms).1) + const.
Proof. move=> F n ms; exact: compute_quad. Qed.
Print Assumptions C25_average_is_product.

(** C25: independent of the order of the measurements. *)
Theorem C25_order_independent :
  forall (F : fieldType) (n : nat) (ms ms' : seq (meas F n)), Permutation ms ms' -> compute ms = compute ms'.
Proof. exact compute_perm. Qed.
Print Assumptions C25_order_independent.

(** C25: a measurement only acts on the observables it constrains, and on those it acts with
    the inverse of its covariance (the limit of large variance of the others). *)
Theorem C25_unconstrained_observables_drop_out :
  forall (F : fieldType) (n : nat) (m : meas F n),
    (forall x y : 'cV[F]_n, (forall i, has m i -> x i 0 = y i 0) -> quad (weight m) x = quad (weight m) y) /\
    ((forall i, has m i) -> weight m = invmx (cov m)) /\
    (forall t : F, t != 0 -> masked 1 m \in unitmx ->
       invmx (masked t m) = weight m + \matrix_(i, j) (if (i == j) && ~~ has m i then t^-1 else 0)).
Proof.
  move=> F n m; split; first by move=> x y; exact: weight_local.
  split; [exact: weight_all | exact: weight_limit].
Qed.
Print Assumptions C25_unconstrained_observables_drop_out.

(** C25, one observable: weighted mean and variance. *)
Theorem C25_single_observable :
  forall (F : fieldType) (ms : seq (F * F)), \sum_(m <- ms) m.2^-1 != 0 ->
    exists const, forall x : F,
      \sum_(m <- ms) (x - m.1) ^+ 2 / m.2 = (x - (compute1 ms).1) ^+ 2 / (compute1 ms).2 + const.
Proof. exact compute1_quad. Qed.
Print Assumptions C25_single_observable.

(** ** Non-vacuity: two measurements over the rationals, one of the first observable only,
    the other of both. *)
Definition demo1 : meas rat_fieldType 1 := Meas (\col_i 1) (\matrix_(i, j) 2%:Q) xpredT.
Definition demo2 : meas rat_fieldType 1 := Meas (\col_i 3%:Q) (\matrix_(i, j) 2%:Q) xpredT.
Example demo_unit : \sum_(m <- [:: demo1; demo2]) weight m \in unitmx.
Proof.
  have h : forall m : meas rat_fieldType 1, (forall i, has m i) -> cov m = (2%:Q)%:M -> weight m = ((2%:Q)^-1)%:M.
    move=> m hm hc; by rewrite weight_all // hc invmx_scalar.
  rewrite big_cons big_seq1 !h //.
  - by rewrite -raddfD /= unitmxE det_scalar unitfE expf_neq0.
  - by apply/matrixP=> i j; rewrite !mxE !ord1.
  - by apply/matrixP=> i j; rewrite !mxE !ord1.
Qed.
Example demo_scalar : compute1 [:: (1%:Q, 2%:Q); (3%:Q, 2%:Q)] = (2%:Q, 1%:Q).
Proof. by apply/eqP; rewrite /compute1 !big_cons !big_nil; vm_compute. Qed.
