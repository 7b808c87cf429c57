(** * Model of the registered neutral-current observables: flavio/physics/bdecays/bvll/observables.py 430-612,
    bvll/observables_bs.py 140-200, bpll.py 217-260.  Descriptions, TeX names and taxonomy are dropped. *)
From Coq Require Import Reals.
From Coquelicot Require Import Coquelicot.
From Verif Require Import Base Angular_Model Decays_Model.
Local Open Scope R_scope.

(** ** The registered observables *)
(** bvll/observables.py 430-448 [_observables]: numerators, the denominator is [SA_den] *)
Definition _observables : list (string * (angcoeffs -> angcoeffs -> R)) :=
  [("ACP", dGdq2_diff); ("AFB", AFB_experiment_num); ("FL", FL_num);
   ("S3", fun J J_bar => S_experiment_num J J_bar J3); ("S4", fun J J_bar => S_experiment_num J J_bar J4); ("S5", fun J J_bar => S_experiment_num J J_bar J5);
   ("S6c", fun J J_bar => S_experiment_num J J_bar J6c); ("S7", fun J J_bar => S_experiment_num J J_bar J7); ("S8", fun J J_bar => S_experiment_num J J_bar J8);
   ("S9", fun J J_bar => S_experiment_num J J_bar J9);
   ("A3", fun J J_bar => A_experiment_num J J_bar J3); ("A4", fun J J_bar => A_experiment_num J J_bar J4); ("A5", fun J J_bar => A_experiment_num J J_bar J5);
   ("A6s", fun J J_bar => A_experiment_num J J_bar J6s); ("A7", fun J J_bar => A_experiment_num J J_bar J7); ("A8", fun J J_bar => A_experiment_num J J_bar J8);
   ("A9", fun J J_bar => A_experiment_num J J_bar J9)]%string.
(** 451-456 [_observables_p]: the denominator is [P_den] *)
Definition _observables_p : list (string * (angcoeffs -> angcoeffs -> R)) :=
  [("P1", fun J J_bar => S_experiment_num J J_bar J3 / 2); ("P2", fun J J_bar => S_experiment_num J J_bar J6s / 8);
   ("P3", fun J J_bar => - S_experiment_num J J_bar J9 / 4); ("ATIm", fun J J_bar => A_experiment_num J J_bar J9 / 2)]%string.
(** 457-463 [_observables_pprime] *)
Definition _observables_pprime : list (string * (angcoeffs -> angcoeffs -> R)) :=
  [("P4p", fun J J_bar => S_experiment_num J J_bar J4); ("P5p", fun J J_bar => S_experiment_num J J_bar J5);
   ("P6p", fun J J_bar => S_experiment_num J J_bar J7); ("P8p", fun J J_bar => S_experiment_num J J_bar J8)]%string.
Fixpoint entry {A : Type} (name : string) (l : list (string * A)) : option A :=
  match l with [] => None | (n, a) :: r => if (n =? name)%string then Some a else entry name r end.
(** 493-539, 591-602: the functions computing <obs>(q2min, q2max) and obs(q2) *)
Definition bvll_diff (d : vll) (name : string) (q2 : R) : option R :=
  match entry name _observables with
  | Some num => Some (BVll_ratio d num SA_den q2)
  | None => match entry name _observables_p with
    | Some num => Some (BVll_ratio d num P_den q2)
    | None => option_map (fun num => BVll_pprime d num q2) (entry name _observables_pprime)
    end
  end.
Definition bvll_bin (d : vll) (name : string) (q2min q2max : R) : option R :=
  match entry name _observables with
  | Some num => Some (BVll_int_ratio d num SA_den q2min q2max)
  | None => match entry name _observables_p with
    | Some num => Some (BVll_int_ratio d num P_den q2min q2max)
    | None => option_map (fun num => BVll_int_pprime d num q2min q2max) (entry name _observables_pprime)
    end
  end.
(** 567-588, 606-612: <Rl1l2>, Rl1l2 *)
Definition bvll_R_bin (d1 d2 : vll) := bvll_obs_int_ratio_leptonflavour dGdq2_ave d1 d2.
Definition bvll_R (d1 d2 : vll) := bvll_obs_ratio_leptonflavour dGdq2_ave d1 d2.
(** bvll/observables_bs.py 140-145 [_observables], 158-172 *)
Definition _observables_bs : list (string * (R -> angcoeffs -> angcoeffs -> angcoeffs -> R)) :=
  [("FL", FL_num_Bs); ("S3", fun y J J_bar J_h => S_experiment_num_Bs y J J_bar J_h J3); ("S4", fun y J J_bar J_h => S_experiment_num_Bs y J J_bar J_h J4);
   ("S7", fun y J J_bar J_h => S_experiment_num_Bs y J J_bar J_h J7)]%string.
Definition bsvll_diff (b : bsvll) (name : string) (q2 : R) : option R := option_map (fun num => bsvll_obs_ratio b num SA_den_Bs q2) (entry name _observables_bs).
Definition bsvll_bin (b : bsvll) (name : string) (q2min q2max : R) : option R := option_map (fun num => bsvll_obs_int_ratio b num SA_den_Bs q2min q2max) (entry name _observables_bs).
(** 108-116 [bsvll_obs_int_ratio_leptonflavour] *)
Definition bsvll_obs_int_ratio_leptonflavour (f : R -> angcoeffs -> angcoeffs -> angcoeffs -> R) (b1 b2 : bsvll) (q2min q2max : R) : R :=
  ratio0 (bsvll_obs_int b1 f q2min q2max) (bsvll_obs_int b2 f q2min q2max).
(** bpll.py 217-221 [_observables] with 240-260: AFB, FH and ACP *)
Definition _observables_bp : list (string * (pcoeffs -> pcoeffs -> R)) := [("ACP", P_dGdq2_cpdiff); ("AFB", P_AFB_cpaverage_num); ("FH", P_FH_cpaverage_num)]%string.
Definition bpll_diff (d : pll) (name : string) (q2 : R) : option R := option_map (fun num => bpll_obs_ratio d num P_dGdq2_cpaverage q2) (entry name _observables_bp).
Definition bpll_bin (d : pll) (name : string) (q2min q2max : R) : option R := option_map (fun num => bpll_obs_int_ratio d num P_dGdq2_cpaverage q2min q2max) (entry name _observables_bp).
