(** * Specification for form factors (C148-C158) *)
From Coq Require Import Reals Lra.
From Verif Require Import Base FormFactors_Model.
Local Open Scope R_scope.

(** pair-production threshold and maximal momentum transfer *)
Definition t_plus (mB mM : R) : R := (mB + mM) ^ 2.
Definition t_minus (mB mM : R) : R := (mB - mM) ^ 2.
(** the point that is mapped to zero: the default lies symmetrically between 0 and t_- *)
Definition t_zero (mB mM : R) (t0 : t0arg) : R :=
  match t0 with
  | T0none => t_plus mB mM - sqrt (t_plus mB mM * (t_plus mB mM - t_minus mB mM))
  | T0tm => t_minus mB mM
  | T0val t => t end.
(** recoil *)
Definition recoil (mB mM q2 : R) : R := (mB ^ 2 + mM ^ 2 - q2) / (2 * mB * mM).

(** a single pole; mass zero stands for no pole *)
Definition no_pole (m q2 v : R) : R := if Req_EM_T m 0 then v else v * (1 - q2 / m ^ 2).

(** masses used by the parametrisations, as names of parameters *)
Definition massesP (process name : string) : string * string :=
  (if String.eqb process "B->K" then ("m_B0", "m_K0")
   else if String.eqb process "B->pi" then if String.eqb name "BCL4-LMVD" then ("B->pi BCL LMVD m_B+", "B->pi BCL LMVD m_pi0") else ("m_B+", "m_pi0")
   else if String.eqb process "B->D" then if String.eqb name "CLN" then ("m_B0", "m_D+") else ("m_B+", "m_D0")
   else if String.eqb process "D->K" then ("m_D0", "m_K+")
   else if String.eqb process "D->pi" then ("m_D0", "m_pi+")
   else ("m_KL", "m_pi+"))%string.
Definition massesV (process name : string) : string * string :=
  (if String.eqb process "B->K*" then ("m_B0", "m_K*0")
   else if String.eqb process "B->rho" then ("m_B0", "m_rho0")
   else if String.eqb process "B->omega" then ("m_B0", "m_omega")
   else if String.eqb process "Bs->phi" then ("m_Bs", "m_phi")
   else if String.eqb process "Bs->K*" then ("m_Bs", "m_K*0")
   else if String.eqb name "CLN" then ("m_B0", "m_D*+") else ("m_B0", "m_D*0"))%string.
(** resonance in the vector and tensor form factors *)
Definition resonance (process name : string) : string :=
  (if String.eqb name "BCL4-LMVD" then process ++ " BCL LMVD m+" else process ++ " BCL m+")%string.

(** value of a polynomial *)
Fixpoint poly (a : list R) (x : R) : R := match a with [] => 0 | c :: r => c + x * poly r x end.
