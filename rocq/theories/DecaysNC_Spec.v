(** * Specification for the neutral-current observables (C130 - C136) *)
From Coq Require Import Reals.
From Coquelicot Require Import Coquelicot.
From Verif Require Import Base Angular_Model Angular_Spec Decays_Model Decays_Spec.
Local Open Scope string_scope.
Local Open Scope R_scope.

(** ** B -> V l l *)
(** kinematic range *)
Definition thr (d : vll) : R := 4 * l_ml d ^ 2.
Definition top (d : vll) : R := (l_mB d - l_mV d) ^ 2.
(** coefficients of the angular distribution of the decay and of its conjugate *)
Definition Jv (d : vll) (q2 : R) : jkey -> R := angularcoeffs_general_v (l_h d q2) q2 (l_mB d) (l_mV d) (l_ml d) (l_ml d).
Definition Jv' (d : vll) (q2 : R) : jkey -> R := angularcoeffs_general_v (l_hbar d q2) q2 (l_mB d) (l_mV d) (l_ml d) (l_ml d).
(** a decay that is kinematically possible; the amplitudes may have jumps (where the treatment of long-distance effects changes) but their products are integrable *)
Definition vll_ok (d : vll) : Prop :=
  0 < l_ml d /\ 2 * l_ml d <= l_mB d - l_mV d /\ 0 < l_mB d /\ 0 <= l_tau d /\
  forall k, ex_RInt (fun q2 => Jv d q2 k) (thr d) (top d) /\ ex_RInt (fun q2 => Jv' d q2 k) (thr d) (top d).
(** the coefficients integrated over a range *)
Definition over (J : R -> jkey -> R) (a b : R) : jkey -> R := fun k => RInt (fun q2 => J q2 k) a b.
(** rate differential in q2 and angles *)
Definition vll_density (d : vll) (h : R -> amps) (q2 thK thl phi : R) : R :=
  9 / (32 * PI) * (16 / 3 * normalisation q2 (l_mB d) (l_mV d) (l_ml d) (l_ml d) * helicity_sum q2 (l_ml d) (l_ml d) (h q2) thK thl phi) * sin thK * sin thl.
(** sum of the rates of both decays *)
Definition total (J J' : jkey -> R) : R := rate_all (density J) + rate_all (density J').
(** numerators and denominators of the published observables, in the conventions of the experiments *)
Definition published (name : string) : option ((angcoeffs -> angcoeffs -> R) * (angcoeffs -> angcoeffs -> R)) :=
  let S s k := Some ((fun J J' : jkey -> R => s * (J k + J' k)), total) in
  let A s k := Some ((fun J J' : jkey -> R => s * (J k - J' k)), total) in
  let P s k n := Some ((fun J J' : jkey -> R => s * (J k + J' k)), (fun J J' : jkey -> R => n * (J J2s + J' J2s))) in
  let Q s k := Some ((fun J J' : jkey -> R => s * (J k + J' k)), (fun J J' : jkey -> R => 2 * sqrt ((J J2s + J' J2s) * - (J J2c + J' J2c)))) in
  let is n := if string_dec name n then true else false in
  if is "FL" then S (-1) J2c else if is "AFB" then S (-3 / 4) J6s
  else if is "S3" then S 1 J3 else if is "S4" then S (-1) J4 else if is "S5" then S 1 J5 else if is "S6c" then S (-1) J6c
  else if is "S7" then S (-1) J7 else if is "S8" then S 1 J8 else if is "S9" then S (-1) J9
  else if is "A3" then A 1 J3 else if is "A4" then A (-1) J4 else if is "A5" then A 1 J5 else if is "A6s" then A (-1) J6s
  else if is "A7" then A (-1) J7 else if is "A8" then A 1 J8 else if is "A9" then A (-1) J9
  else if is "P1" then P 1 J3 2 else if is "P2" then P (-1) J6s 8 else if is "P3" then P 1 J9 4
  else if is "ATIm" then Some ((fun J J' : jkey -> R => - (J J9 - J' J9)), (fun J J' : jkey -> R => 2 * (J J2s + J' J2s)))
  else if is "P4p" then Q (-1) J4 else if is "P5p" then Q 1 J5 else if is "P6p" then Q (-1) J7 else if is "P8p" then Q 1 J8
  else None.
(** squared velocity of the leptons in the rest frame of the pair *)
Definition beta2 (d : vll) (q2 : R) : R := 1 - 4 * l_ml d ^ 2 / q2.
Definition tensor_free (d : vll) : Prop := forall q2, thr d <= q2 <= top d -> no_tensors (l_h d q2) /\ no_tensors (l_hbar d q2).
Definition scalar_free (d : vll) : Prop := forall q2, thr d <= q2 <= top d ->
  (aS (l_h d q2) = RtoC 0 /\ aP (l_h d q2) = RtoC 0) /\ (aS (l_hbar d q2) = RtoC 0 /\ aP (l_hbar d q2) = RtoC 0).

(** ** B -> P l l *)
Definition pthr (d : pll) : R := 4 * k_ml d ^ 2.
Definition ptop (d : pll) : R := (k_mB d - k_mP d) ^ 2.
Definition Jp (d : pll) (q2 : R) : pcoeffs := angularcoeffs_general_p (k_h d q2) q2 (k_mB d) (k_mP d) (k_ml d) (k_ml d).
Definition Jp' (d : pll) (q2 : R) : pcoeffs := angularcoeffs_general_p (k_hbar d q2) q2 (k_mB d) (k_mP d) (k_ml d) (k_ml d).
Definition pll_ok (d : pll) : Prop :=
  0 < k_ml d /\ 2 * k_ml d <= k_mB d - k_mP d /\ 0 < k_mB d /\ 0 <= k_tau d /\
  (ex_RInt (fun q2 => Ja (Jp d q2)) (pthr d) (ptop d) /\ ex_RInt (fun q2 => Jb (Jp d q2)) (pthr d) (ptop d) /\ ex_RInt (fun q2 => Jc (Jp d q2)) (pthr d) (ptop d)) /\
  (ex_RInt (fun q2 => Ja (Jp' d q2)) (pthr d) (ptop d) /\ ex_RInt (fun q2 => Jb (Jp' d q2)) (pthr d) (ptop d) /\ ex_RInt (fun q2 => Jc (Jp' d q2)) (pthr d) (ptop d)).
Definition pll_density (d : pll) (h : R -> pamps) (q2 th : R) : R :=
  2 * normalisation q2 (k_mB d) (k_mP d) (k_ml d) (k_ml d) * helicity_sum_p q2 (k_ml d) (k_ml d) (h q2) th * sin th.
(** zero outside the kinematic range (at threshold there is no phase space) *)
Definition within (d : pll) (g : R -> R) (q2 : R) : R := if Rle_dec q2 (pthr d) then 0 else if Rlt_dec (ptop d) q2 then 0 else g q2.
(** one decay (amplitudes h) into the part of the angle range between th1 and th2; both decays; both decays at a given angle *)
Definition pll_one (d : pll) (h : R -> pamps) (th1 th2 : R) : R -> R := within d (fun q2 => RInt (fun th => pll_density d h q2 th) th1 th2).
Definition pll_rate (d : pll) (th1 th2 q2 : R) : R := pll_one d (k_h d) th1 th2 q2 + pll_one d (k_hbar d) th1 th2 q2.
Definition pll_angular (d : pll) (th : R) : R -> R := within d (fun q2 => pll_density d (k_h d) q2 th + pll_density d (k_hbar d) q2 th).
Definition tensor_free_p (d : pll) : Prop := forall q2, pthr d <= q2 <= ptop d -> (pT (k_h d q2) = RtoC 0 /\ pTt (k_h d q2) = RtoC 0) /\ (pT (k_hbar d q2) = RtoC 0 /\ pTt (k_hbar d q2) = RtoC 0).
