(** * Model of MultivariateNormalDistribution (flavio/statistics/probability.py 1315-1460), of its use by
    delta_logpdf (127-134), and of the combination and convolution of such distributions (1718-1757, 1775-1791,
    1994-2012)

    Numbers are real numbers (no rounding); vectors and matrices are those of mathcomp over Coq's real numbers.
    [sqrt] of a negative number is 0 here and nan in numpy, division by 0 gives 0 here and inf or nan in numpy;
    [init] refuses matrices without positive diagonal, where numpy's [eigvals] raises because of the nan. *)
From Coq Require Import Reals ZArith.
From Verif Require Base.
From mathcomp Require Import all_ssreflect all_algebra.
From Verif Require Import RealField.
Set Implicit Arguments.
Unset Strict Implicit.
Unset Printing Implicit Defensive.
Import GRing.Theory.
Local Open Scope ring_scope.
Notation Ok := Base.Ok.
Notation Err := Base.Err.

(** the attributes central_value, covariance, standard_deviation, correlation *)
Record mvn (n : nat) := Mvn { mu : 'cV[R]_n; cov : 'M[R]_n; sd : 'cV[R]_n; corr : 'M[R]_n }.
Inductive corr_arg (n : nat) := NoCorrelation | Number of R | Matrix of 'M[R]_n.
Arguments NoCorrelation {n}.
Arguments Number {n}.

(** [numpy.allclose(m, m.T)]: |a - b| <= 1e-8 + 1e-5 |b| for all pairs *)
Definition close (a b : R) : bool := if Rle_dec (Rabs (a - b)) (1 / 100000000 + 1 / 100000 * Rabs b)%coqR then true else false.
Definition allclose n (m : 'M[R]_n) : bool := [forall i, forall j, close (m i j) (m j i)].
(** 1362-1366, 1382-1386 *)
Definition diagonal n (m : 'M[R]_n) : 'M[R]_n := \matrix_(i, j) if i == j then m i i else 0.
Definition complete n (m : 'M[R]_n) : 'M[R]_n := if allclose m then m else m + m^T - diagonal m.
(** [numpy.outer] *)
Definition outer n (v : 'cV[R]_n) : 'M[R]_n := \matrix_(i, j) (v i 0 * v j 0).

(** 1396 [err], 1397 [scaled_covariance] *)
Definition err n (c : 'M[R]_n) : 'cV[R]_n := \col_i sqrt (c i i).
Definition scaled n (c : 'M[R]_n) : 'M[R]_n := \matrix_(i, j) (c i j / (err c i 0 * err c j 0)).
Definition pos (x : R) : bool := if Rlt_dec 0 x then true else false.

Section Init.
  (** [np.all(np.linalg.eigvals(m) > 0)] *)
  Variable eigvals_positive : forall n, 'M[R]_n -> bool.
  (** 1396-1399 *)
  Definition check n (d : mvn n) : Base.result (mvn n) :=
    if ~~ [forall i, pos (cov d i i)] then Err Base.ValueError          (* numpy.linalg.LinAlgError *)
    else if eigvals_positive (scaled (cov d)) then Ok d else Err Base.AssertionError.
  (** 1350-1399 [__init__] *)
  Definition init n (central : 'cV[R]_n) (covariance : option 'M[R]_n) (standard_deviation : option 'cV[R]_n) (correlation : corr_arg n)
      : Base.result (mvn n) :=
    match covariance with
    | Some c =>
      let c := complete c in
      let s := \col_i sqrt (c i i) in
      check (Mvn central c s (\matrix_(i, j) if i == j then 1 else c i j / outer s i j))
    | None =>
      match standard_deviation with
      | None => Err Base.ValueError
      | Some s =>
        let r := match correlation with
                 | NoCorrelation => 1%:M
                 | Number x => 1%:M + \matrix_(i, j) ((1 - (i == j)%:R) * x)
                 | Matrix r => complete r
                 end in
        check (Mvn central (\matrix_(i, j) (outer s i j * r i j)) s r)
      end
    end.

  (** scipy.stats.multivariate_normal.logpdf, for a positive definite symmetric matrix *)
  Definition scipy_logpdf n (x m : 'cV[R]_n) (c : 'M[R]_n) : R :=
    (- (1 / 2) * (INR n * ln (2 * PI) + ln (\det c) + ((x - m)^T *m invmx c *m (x - m)) 0%R 0%R))%coqR.
  (** division by [err], component by component *)
  Definition rescale n (v e : 'cV[R]_n) : 'cV[R]_n := \col_i (v i 0 / e i 0).
  (** 1447-1452; [slogdet] returns the logarithm of the modulus of the determinant *)
  Definition logpdf n (d : mvn n) (x : 'cV[R]_n) : R :=
    let e := err (cov d) in
    (scipy_logpdf (rescale x e) (rescale (mu d) e) (scaled (cov d)) +
     (ln (Rabs (\det (scaled (cov d)))) - ln (Rabs (\det (cov d)))) / 2)%coqR.

  (** 1454-1460 *)
  Definition error n (d : mvn n) (nsigma : R) : 'cV[R]_n := \col_i (nsigma * err (cov d) i 0).

  (** [numpy.delete] with a list of positions: negative ones count from the end, repeated ones are allowed *)
  Definition in_range (n : nat) (e : Z) : bool := (Z.leb (- Z.of_nat n) e && Z.ltb e (Z.of_nat n))%bool.
  Definition deleted n (exclude : seq Z) (i : 'I_n) : bool :=
    has (fun e => Z.eqb e (Z.of_nat i) || Z.eqb e (Z.of_nat i - Z.of_nat n)) exclude.
  Definition kept n (exclude : seq Z) : seq 'I_n := [seq i <- enum 'I_n | ~~ deleted exclude i].
  Definition delete_vec n (ex : seq Z) (v : 'cV[R]_n) : 'cV[R]_(size (kept n ex)) := \col_i v (tnth (in_tuple (kept n ex)) i) 0.
  Definition delete_mx n (ex : seq Z) (m : 'M[R]_n) : 'M[R]_(size (kept n ex)) :=
    \matrix_(i, j) m (tnth (in_tuple (kept n ex)) i) (tnth (in_tuple (kept n ex)) j).

  (** a distribution: a normal distribution or a multivariate one *)
  Inductive dist := Uni (central standard_deviation : R) | Multi n (d : mvn n).
  (** the constructor of NormalDistribution refuses widths that are not positive *)
  Definition normal_init (c s : R) : Base.result dist := if pos s then Ok (Uni c s) else Err Base.ValueError.
  (** 1407-1430 [reduce_dimension] *)
  Definition reduce_dimension n (d : mvn n) (exclude : seq Z) : Base.result dist :=
    if exclude is [::] then Ok (Multi d)
    else if ~~ all (in_range n) exclude then Err Base.IndexError
    else
      let c := delete_vec exclude (mu d) in
      let s := delete_mx exclude (cov d) in
      if size (kept n exclude) == 1%N then normal_init (\sum_i c i 0) (sqrt (\sum_i s i i))     (* the only element *)
      else Base.bind (init c (Some s) None NoCorrelation) (fun d => Ok (Multi d)).
  (** flavio/math/functions.py 20-27 *)
  Definition normal_logpdf (x mu s : R) : R := (- (x - mu) ^ 2 / s ^ 2 / 2 - ln (sqrt (2 * PI) * s))%coqR.
  Definition dist_logpdf (d : dist) (x : seq R) : Base.result R :=
    match d with
    | Uni c s => if x is [:: x] then Ok (normal_logpdf x c s) else Err Base.ValueError   (* one point *)
    | Multi n d => if size x == n then Ok (logpdf d (\col_i nth 0 x i)) else Err Base.ValueError
    end.
  (** 1432-1446 [logpdf] with exclude, for one point given as a list *)
  Definition logpdf_exclude n (d : mvn n) (x : seq R) (exclude : option (seq Z)) : Base.result R :=
    match exclude with
    | Some ex => Base.bind (reduce_dimension d ex) (fun d => dist_logpdf d x)
    | None => dist_logpdf (Multi d) x
    end.
  (** 127-134 [delta_logpdf]: the positions are compared as they are given *)
  Definition central_exclude n (d : mvn n) (exclude : option (seq Z)) : seq R :=
    match exclude with
    | Some ex => [seq mu d i 0 | i <- [seq i <- enum 'I_n | ~~ has (Z.eqb (Z.of_nat (nat_of_ord i))) ex]]
    | None => [seq mu d i 0 | i <- enum 'I_n]
    end.
  Definition delta_logpdf n (d : mvn n) (x : seq R) (exclude : option (seq Z)) : Base.result R :=
    Base.bind (logpdf_exclude d x exclude) (fun a =>
    Base.bind (logpdf_exclude d (central_exclude d exclude) exclude) (fun b => Ok (a - b))).

  (** 1994-2012 [_combine_multivariate_gaussians] *)
  Definition combine_gaussians n (ds : seq (mvn n)) : Base.result (mvn n) :=
    let w := invmx (\sum_(d <- ds) invmx (cov d)) in
    let m := w *m \sum_(d <- ds) (invmx (cov d) *m mu d) in
    init m (Some w) None NoCorrelation.

  (** 1718-1757 [_convolve_distributions_multivariate] and 1775-1791 [_convolve_multivariate_gaussians]; a
      distribution comes with the kind of its central value, a list or an array; [None] is Python's None.  A
      numerical distribution appears only by name. *)
  Inductive kind := AsList | AsArray.
  Inductive operand (n : nat) := Gauss (d : mvn n) (k : kind) | Numeric (c : 'cV[R]_n).
  Definition op_central n (o : operand n) : 'cV[R]_n := match o with Gauss d _ => mu d | Numeric c => c end.
  Inductive convolved (n : nat) := Returned (d : mvn n) | Same (o : operand n) | PyNone | NumericalConvolution.
  Arguments PyNone {n}.
  Arguments NumericalConvolution {n}.
  Definition gaussian n (o : operand n) : option (mvn n * kind) := match o with Gauss d k => Some (d, k) | Numeric _ => None end.
  (** the truth value of the comparison of the central values of two operands: of two lists it is a boolean, with
      an array it raises if there is more than one component *)
  Definition same_central n (a b : mvn n * kind) : Base.result bool :=
    match a.2, b.2 with
    | AsList, AsList => Ok (mu a.1 == mu b.1)
    | _, _ => if n == 1%N then Ok (mu a.1 == mu b.1) else Err Base.ValueError
    end.
  Fixpoint all_same n (a : mvn n * kind) (l : seq (mvn n * kind)) : Base.result bool :=
    match l with
    | [::] => Ok true
    | b :: l => Base.bind (same_central b a) (fun t => if t then all_same a l else Ok false)
    end.
  Definition convolve_gaussians n (same : bool) (l : seq (mvn n * kind)) : Base.result (mvn n) :=
    match l with
    | [::] => Err Base.IndexError
    | [:: a] => Ok a.1
    | a :: _ =>
      let c := \sum_(d <- l) cov d.1 in
      if same then Base.bind (all_same a l) (fun t => if t then init (mu a.1) (Some c) None NoCorrelation else Err Base.AssertionError)
      else init (\sum_(d <- l) mu d.1) (Some c) None NoCorrelation
    end.
  Definition convolve n (same : bool) (l : seq (operand n)) : Base.result (convolved n) :=
    match l with
    | [::] => Err Base.IndexError
    | [:: o] => Ok (Same o)
    | o :: _ =>
      if same && ~~ all (fun p => op_central p == op_central o) l then Err Base.AssertionError
      else
        let gaussians := pmap (@gaussian n) l in
        let others := [seq p <- l | ~~ isSome (gaussian p)] in
        if (~~ nilp gaussians) && (size others == 0%N) then Base.bind (convolve_gaussians same gaussians) (fun d => Ok (Returned d))
        else
          Base.bind (if gaussians is [::] then Ok tt else Base.bind (convolve_gaussians same gaussians) (fun _ => Ok tt)) (fun _ =>
          if (1 < size others)%N then Ok PyNone            (* 1751: the exception is created, but not raised *)
          else Ok NumericalConvolution)
    end.
End Init.
