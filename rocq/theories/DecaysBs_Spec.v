(** * Specification for B_s -> V l l: untagged, time-integrated decays (C135, C136) *)
From Coq Require Import Reals.
From Coquelicot Require Import Coquelicot.
From Verif Require Import Base Angular_Model Angular_Spec Decays_Model Decays_Spec DecaysNC_Spec.
Local Open Scope string_scope.
Local Open Scope R_scope.

(** the conjugate meson decaying to the same final state: the CP-conjugate state has opposite helicities *)
Definition reversed (l : hel) : hel := match l with H0 => H0 | Hpl => Hmi | Hmi => Hpl end.
Definition same_state (h : amps) : amps := {|
  aV := fun l => (- aV h (reversed l))%C; aA := fun l => (- aA h (reversed l))%C; aP := (- aP h)%C; aS := aS h;
  aT := fun l => (- aT h (reversed l))%C; aTt := fun l => (- aTt h (reversed l))%C |}.
Definition width_difference (b : bsvll) : R := b_dGoG b / 2.
(** coefficients for a given pair of amplitudes *)
Definition Jb_ (b : bsvll) (H : amps) (q2 : R) : jkey -> R := angularcoeffs_general_v H q2 (l_mB (b_d b)) (l_mV (b_d b)) (l_ml (b_d b)) (l_ml (b_d b)).
(** decays at time t (in units of the lifetime) of equal numbers of mesons and antimesons; x is the mass difference *)
Definition at_time (b : bsvll) (x q2 t : R) (k : jkey) : R :=
  let h := l_h (b_d b) q2 in let h' := same_state (l_hbar (b_d b) q2) in
  Jb_ b (from_B (b_qp b) x (width_difference b) h h' t) q2 k + Jb_ b (from_Bbar (b_qp b) x (width_difference b) h h' t) q2 k.
(** the coefficients of the distribution of all decays from time 0 on *)
Definition untagged (b : bsvll) (x q2 : R) (T : jkey -> R) : Prop :=
  forall k, is_lim (fun t0 => RInt (fun t => at_time b x q2 t k) 0 t0) p_infty (Finite (T k)).
(** mixing without CP violation in mixing itself; both widths positive; squared amplitudes integrable *)
Definition bs_ok (b : bsvll) : Prop :=
  vll_ok (b_d b) /\ tensor_free (b_d b) /\ Cmod (b_qp b) = 1 /\ -1 < width_difference b < 1 /\
  forall k, ex_RInt (fun q2 => Jb_ b (amps_add (l_h (b_d b) q2) (b_qp b) (same_state (l_hbar (b_d b) q2))) q2 k) (thr (b_d b)) (top (b_d b)).
(** numerators of the published observables; the denominator is the rate *)
Definition published_bs (name : string) : option ((jkey -> R) -> R) :=
  let is n := if string_dec name n then true else false in
  if is "FL" then Some (fun T => - T J2c) else if is "S3" then Some (fun T => T J3) else if is "S4" then Some (fun T => - T J4)
  else if is "S7" then Some (fun T => - T J7) else None.
