(** * Independent specification of covariances and FastLikelihoods *)
From Verif Require Import Base Constraints_Model Covariance_Model.
Set Implicit Arguments.

(** entry (i, j) of a matrix given by rows *)
Definition entry {V} (m : list (list V)) (i j : nat) : option V :=
  match nth_error m i with Some r => nth_error r j | None => None end.
Definition square {V} (n : nat) (m : list (list V)) : Prop :=
  length m = n /\ Forall (fun r => length r = n) m.

(** [m'] is [m] (in the basis [obs]) expressed in the basis [ours]. *)
Definition matrix_in_basis {P V} (obs ours : list P) (m m' : list (list V)) : Prop :=
  square (length ours) m' /\
  forall i j a b o p,
    nth_error ours i = Some o -> nth_error ours j = Some p ->
    nth_error obs a = Some o -> nth_error obs b = Some p ->
    entry m' i j = entry m a b.
Definition vector_in_basis {P V} (obs ours : list P) (v v' : list V) : Prop :=
  length v' = length ours /\
  forall i a o, nth_error ours i = Some o -> nth_error obs a = Some o -> nth_error v' i = nth_error v a.

(** What the trace (newest first) of an object last produced or loaded. *)
Fixpoint latest {P C} (loads : list P * C -> result C) (tr : list (cov_op P C * cov_out P C)) : option C :=
  match tr with
  | [] => None
  | (_, Got c _) :: _ => Some c
  | (Load d, Loaded) :: tr' => match loads d with Ok c => Some c | Err _ => latest loads tr' end
  | _ :: tr' => latest loads tr'
  end.
