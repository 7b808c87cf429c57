(** * Specification of running: regions of active flavours, independent of the loops of the code *)
From Coq Require Import Reals.
From Verif Require Import Base Running_Model.
Local Open Scope R_scope.

(** The thresholds are in their physical order, and above the lowest scale of the code. *)
Definition ordered (t : thresholds) : Prop := 0.1 < t_mc t /\ t_mc t < t_mb t /\ t_mb t < t_mt t.

(** The number of active flavours at a scale: 3 below mc, 4 from mc to mb, 5 from mb to mt, 6 above. *)
Definition active (t : thresholds) (nf : nat) (x : R) : Prop :=
  (nf = 3%nat /\ x < t_mc t) \/ (nf = 4%nat /\ t_mc t <= x < t_mb t) \/
  (nf = 5%nat /\ t_mb t <= x < t_mt t) \/ (nf = 6%nat /\ t_mt t <= x).

(** A step integrates with [nf] flavours from one scale to another. *)
Definition step : Type := (nat * R * R)%type.
(** All scales strictly between the ends of a step have that number of active flavours. *)
Definition step_active (t : thresholds) (s : step) : Prop :=
  let '(nf, a, b) := s in a <> b /\ forall x, Rmin a b < x < Rmax a b -> active t nf x.
(** The steps lead from [a] to [b] without gaps, in one direction. *)
Fixpoint leads (a b : R) (l : list step) : Prop :=
  match l with
  | [] => a = b
  | (_, x, y) :: l => x = a /\ (a < y <= b \/ b <= y < a) /\ leads y b l
  end.
(** Consecutive steps have different numbers of flavours: no step is cut at a place that is not a threshold. *)
Fixpoint changes (l : list step) : Prop :=
  match l with
  | (n, _, _) :: (((m, _, _) :: _) as l') => n <> m /\ changes l'
  | _ => True
  end.
Definition run_steps {Y} (integrate : nat -> R -> R -> Y -> Y) (l : list step) (y : Y) : Y :=
  fold_left (fun y '(nf, a, b) => integrate nf a b y) l y.

(** Inverse fine-structure constant: the change over a step is proportional to the logarithm of the
    ratio of the scales and to the sum of the squared charges (times colours) of the active fermions;
    three charged leptons, but two below mc. *)
Definition charges (nf : nat) : R :=
  match nf with
  | 3%nat => 1 * (4 / 3) + 2 * (1 / 3) + 2
  | 4%nat => 2 * (4 / 3) + 2 * (1 / 3) + 3
  | 5%nat => 2 * (4 / 3) + 3 * (1 / 3) + 3
  | _ => 3 * (4 / 3) + 3 * (1 / 3) + 3
  end.
Definition inverse_change (nf : nat) (a b : R) : R := - (2 / (3 * PI)) * charges nf * (ln b - ln a).
(** in the scheme with [nf] flavours, from 91.1876 GeV *)
Definition inverse_alpha (t : thresholds) (aeMZ : R) (nf : nat) (x : R) : R :=
  / aeMZ +
  match nf with
  | 6%nat => inverse_change 5 91.1876 (t_mt t) + inverse_change 6 (t_mt t) x
  | 5%nat => inverse_change 5 91.1876 x
  | 4%nat => inverse_change 5 91.1876 (t_mb t) + inverse_change 4 (t_mb t) x
  | _ => inverse_change 5 91.1876 (t_mb t) + inverse_change 4 (t_mb t) (t_mc t) + inverse_change 3 (t_mc t) x
  end.

(** Running down from [a] with a requested number of flavours: where the region of [n] flavours begins. *)
Definition enters (t : thresholds) (n : nat) (a : R) : R :=
  match n with 3%nat => Rmin a (t_mc t) | 4%nat => Rmin a (t_mb t) | 5%nat => Rmin a (t_mt t) | _ => a end.
Definition lower (t : thresholds) (n : nat) : R :=
  match n with 3%nat => 0.1 | 4%nat => t_mc t | 5%nat => t_mb t | _ => t_mt t end.

(** What a call returns when nothing is remembered, under the configuration [t]. *)
Definition fresh {Y D} (evolve : D -> nat -> R -> R -> Y -> Y) (t : thresholds) (y : Y) (d : D) (a b : R) (n : option nat) : result Y :=
  if Req_EM_T a b then Ok y else if Rlt_dec b 0.1 then Err ValueError else evolve_sm_body evolve t y d a b n.
(** The configurations in force until now, the current one last *)
Definition in_force {Y D} (t : thresholds) (past : list (@rop Y D)) : list thresholds :=
  t :: flat_map (fun o => match o with SetThresholds t' => [t'] | _ => [] end) past.
Definition no_overwrite {Y D} (o : @rop Y D) : Prop := forall i y, o <> Overwrite i y.

(** The path of the transverse decay constant to a final scale in the scheme with [n] flavours: from
    2 GeV in the scheme with three flavours, changing the scheme at the thresholds. *)
Definition f_perp_path (t : thresholds) (n : nat) (x : R) : list step :=
  match n with
  | 3%nat => [(3%nat, 2, x)]
  | 4%nat => [(3%nat, 2, t_mc t); (4%nat, t_mc t, x)]
  | 5%nat => [(3%nat, 2, t_mc t); (4%nat, t_mc t, t_mb t); (5%nat, t_mb t, x)]
  | _ => [(3%nat, 2, t_mc t); (4%nat, t_mc t, t_mb t); (5%nat, t_mb t, t_mt t); (6%nat, t_mt t, x)]
  end.
Definition f_perp_factor (alpha_s : nat -> R -> R) (s : step) : R :=
  let '(nf, a, b) := s in Rpower (alpha_s nf b / alpha_s nf a) (4 / (33 - 2 * INR nf)).
Definition prod (l : list R) : R := fold_right Rmult 1 l.
(** The number of flavours just below a scale *)
Definition flavours_below (t : thresholds) (n : nat) (x : R) : Prop :=
  (n = 3%nat /\ x <= t_mc t) \/ (n = 4%nat /\ t_mc t < x <= t_mb t) \/
  (n = 5%nat /\ t_mb t < x <= t_mt t) \/ (n = 6%nat /\ t_mt t < x).
