(** * Model of the remaining time-integrated B_s observable: flavio/physics/bdecays/bvll/observables_bs.py 128-138 [bsvll_dbrdq2_19_func].
    The decays themselves are in [Decays_Model], the registered names in [DecaysNC_Model]. The warnings filters are dropped. *)
From Coq Require Import Reals.
From Verif Require Import Base Angular_Model Decays_Model DecaysNC_Model.
Local Open Scope R_scope.
(** par['delta_BsKstarmumu'] is [delta]; 136-137: q2max = 19, q2min = 0.1 *)
Definition bsvll_dbrdq2_19 (delta : R) (b : bsvll) : R := (1 + delta) * bsvll_dbrdq2_int b (1 / 10) 19 * (19 - 1 / 10).
