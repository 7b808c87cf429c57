(** * What is expected of numerical distributions *)
From Coq Require Import Reals Sorted.
From Verif Require Import Base Dist_Model Numerical_Model.
Set Implicit Arguments.
Local Open Scope R_scope.

(** The documented tables: positions in strictly ascending order, as many non-negative densities; at
    least one density other than the last one is positive. *)
Definition table (x y : list R) : Prop :=
  length x = length y /\ Sorted Rlt x /\ Forall (fun v => 0 <= v) y /\ exists i, (S i < length y)%nat /\ 0 < nth i y 0.

(** the density as a function on the reals *)
Definition density (d : numdist) (t : R) : R := match npdf d t with Some v => v | None => 0 end.

(** first and last position *)
Definition first_of (x : list R) : R := nth 0 x 0.
Definition last_of (x : list R) : R := nth (length x - 1) x 0.

(** distributions constructed from a documented table *)
Definition is_numerical (d : numdist) : Prop := exists x y c, table x y /\ mk_numerical x y c = Ok d.
(** products and sums of finitely many numbers *)
Definition product (l : list R) : R := fold_right Rmult 1 l.
Definition total (l : list R) : R := fold_right Rplus 0 l.
(** [n] equidistant positions from [a] to [b] *)
Definition grid_point (a b : R) (n i : nat) : R := a + INR i * ((b - a) / INR (n - 1)).
(** the largest lower and the smallest upper end of the supports *)
Definition common_support (l : list numdist) (lo hi : R) : Prop :=
  (forall d, In d l -> fst (nsupport d) <= lo) /\ (exists d, In d l /\ fst (nsupport d) = lo) /\
  (forall d, In d l -> hi <= snd (nsupport d)) /\ (exists d, In d l /\ snd (nsupport d) = hi).
(** [v] if [t] is in the half-open interval of length [delta] that ends at [x], otherwise 0 *)
Definition if_in_bin (t x delta v : R) : R := if Rlt_dec (x - delta) t then if Rle_dec t x then v else 0 else 0.
