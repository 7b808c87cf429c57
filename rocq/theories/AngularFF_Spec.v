(** * Specification for the helicity amplitudes (C121 - C123)

    Matrix elements of the quark currents between the mesons in terms of form factors, contracted with the
    polarisation vectors of the vector meson and of the lepton pair, in the rest frame of the decaying meson. *)
From Coq Require Import Reals.
From Coquelicot Require Import Complex.
From Verif Require Import Base Angular_Model Angular_Spec.
Local Open Scope R_scope.

(** four-vectors with complex components, the Minkowski product and the contraction with the Levi-Civita tensor *)
Record four := Four { e0 : C; e1 : C; e2 : C; e3 : C }.
Definition dot (a b : four) : C := (e0 a * e0 b - e1 a * e1 b - e2 a * e2 b - e3 a * e3 b)%C.
Definition add4 (a b : four) : four := {| e0 := e0 a + e0 b; e1 := e1 a + e1 b; e2 := e2 a + e2 b; e3 := e3 a + e3 b |}%C.
Definition det3 (a b c : four) : C :=
  (e1 a * (e2 b * e3 c - e3 b * e2 c) - e2 a * (e1 b * e3 c - e3 b * e1 c) + e3 a * (e1 b * e2 c - e2 b * e1 c))%C.
Definition levi (a b c d : four) : C := (e0 a * det3 b c d - e0 b * det3 a c d + e0 c * det3 a b d - e0 d * det3 a b c)%C.
Definition real4 (t x y z : R) : four := {| e0 := RtoC t; e1 := RtoC x; e2 := RtoC y; e3 := RtoC z |}.

Section Frame.
  Variables (q2 mB mM : R).
  (** momenta of the decaying meson, of the daughter moving along +z and of the lepton pair *)
  Definition momentum : R := sqrt (triangle (mB ^ 2) (mM ^ 2) q2) / (2 * mB).
  Definition p_B : four := real4 mB 0 0 0.
  Definition p_M : four := real4 ((mB ^ 2 + mM ^ 2 - q2) / (2 * mB)) 0 0 momentum.
  Definition p_q : four := real4 ((mB ^ 2 - mM ^ 2 + q2) / (2 * mB)) 0 0 (- momentum).
  (** complex conjugate polarisation vectors of the daughter (vector meson) and of the lepton pair *)
  Definition pol_M (l : hel) : four :=
    match l with
    | H0 => real4 (momentum / mM) 0 0 ((mB ^ 2 + mM ^ 2 - q2) / (2 * mB) / mM)
    | Hpl => {| e0 := RtoC 0; e1 := RtoC (- (/ sqrt 2)); e2 := (Ci * RtoC (/ sqrt 2))%C; e3 := RtoC 0 |}
    | Hmi => {| e0 := RtoC 0; e1 := RtoC (/ sqrt 2); e2 := (Ci * RtoC (/ sqrt 2))%C; e3 := RtoC 0 |}
    end.
  Definition pol_q (l : hel) : four :=
    match l with
    | H0 => real4 (- momentum / sqrt q2) 0 0 ((mB ^ 2 - mM ^ 2 + q2) / (2 * mB) / sqrt q2)
    | Hpl => {| e0 := RtoC 0; e1 := RtoC (/ sqrt 2); e2 := (Ci * RtoC (/ sqrt 2))%C; e3 := RtoC 0 |}
    | Hmi => {| e0 := RtoC 0; e1 := RtoC (- (/ sqrt 2)); e2 := (Ci * RtoC (/ sqrt 2))%C; e3 := RtoC 0 |}
    end.
End Frame.

(** the traditional form factors V, A0, A1, A2, T1, T2, T3 *)
Record ffs := FFs { f_V : R; f_A0 : R; f_A1 : R; f_A2 : R; f_T1 : R; f_T2 : R; f_T3 : R }.
(** A12 and T23 in terms of them *)
Definition same_form_factors (q2 mB mV : R) (ff : ffkey -> R) (F : ffs) : Prop :=
  ff FV = f_V F /\ ff FA0 = f_A0 F /\ ff FA1 = f_A1 F /\
  ff FA12 = ((mB + mV) ^ 2 * (mB ^ 2 - mV ^ 2 - q2) * f_A1 F - triangle (mB ^ 2) (mV ^ 2) q2 * f_A2 F) / (16 * mB * mV ^ 2 * (mB + mV)) /\
  ff FT1 = f_T1 F /\ ff FT2 = f_T2 F /\
  ff FT23 = ((mB ^ 2 - mV ^ 2) * (mB ^ 2 + 3 * mV ^ 2 - q2) * f_T2 F - triangle (mB ^ 2) (mV ^ 2) q2 * f_T3 F) / (8 * mB * mV ^ 2 * (mB - mV)).

Section Currents.
  Variables (q2 mB mV : R) (F : ffs) (eps : four) (l : hel).
  Let e := pol_M q2 mB mV l.
  Let p := p_B mB.
  Let k := p_M q2 mB mV.
  Let q := p_q q2 mB mV.
  (** the matrix elements of the vector, axial and dipole currents, contracted with [eps] *)
  Definition vector_current : C := (RtoC (2 * f_V F / (mB + mV))%R * levi eps e p k)%C.
  Definition axial_current : C :=
    (Ci * (RtoC ((mB + mV) * f_A1 F)%R * dot eps e - RtoC (f_A2 F / (mB + mV))%R * dot e q * dot eps (add4 p k)
           - RtoC (((mB + mV) * f_A1 F - (mB - mV) * f_A2 F - 2 * mV * f_A0 F) / q2)%R * dot e q * dot eps q))%C.
  Definition dipole_current : C := (RtoC (2 * f_T1 F)%R * levi eps e p k)%C.
  Definition dipole5_current : C :=
    (Ci * (RtoC (f_T2 F) * (RtoC (mB ^ 2 - mV ^ 2)%R * dot eps e - dot e q * dot eps (add4 p k))
           + RtoC (f_T3 F) * dot e q * (dot eps q - RtoC (q2 / (mB ^ 2 - mV ^ 2))%R * dot eps (add4 p k))))%C.
  (** coefficients c of left-handed and c' of right-handed quark currents *)
  Definition chiral (c c' : C) : C := ((c + c') * vector_current - (c - c') * axial_current)%C.
  Definition dipole (c c' : C) : C := ((c + c') * dipole_current - (c - c') * dipole5_current)%C.
End Currents.

(** ** B -> P *)
Section CurrentsP.
  Variables (q2 mB mP fp f0 fT : R) (eps : four).
  Definition vector_current_p : C :=
    (RtoC fp * (dot eps (add4 (p_B mB) (p_M q2 mB mP)) - RtoC ((mB ^ 2 - mP ^ 2) / q2)%R * dot eps (p_q q2 mB mP))
     + RtoC f0 * (RtoC ((mB ^ 2 - mP ^ 2) / q2)%R * dot eps (p_q q2 mB mP)))%C.
  Definition dipole_current_p : C :=
    (RtoC (fT / (mB + mP))%R * (RtoC q2 * dot eps (add4 (p_B mB) (p_M q2 mB mP)) - RtoC (mB ^ 2 - mP ^ 2)%R * dot eps (p_q q2 mB mP)))%C.
End CurrentsP.
Definition neg4 (a : four) : four := {| e0 := - e0 a; e1 := - e1 a; e2 := - e2 a; e3 := - e3 a |}%C.

(** a left-handed neutrino of mass zero with a charged lepton of mass ml: the amplitudes with the other helicity of the
    neutrino vanish.  For helicities of the leptons that are opposite the sign s of [flip] is that of the charged lepton;
    for equal ones the vector and axial amplitudes are those of definite parity, their sum that of definite helicity. *)
Definition no_wrong_helicity (q2 ml : R) (H : amps) : Prop :=
  (forall l, flip q2 ml 0 H (-1) l = RtoC 0) /\ (forall l, (same_v q2 ml 0 H l + same_a q2 ml 0 H l)%C = RtoC 0) /\
  (scalar q2 ml 0 H + pseudo q2 ml 0 H)%C = RtoC 0.
Definition no_wrong_helicity_p (q2 ml : R) (h : pamps) : Prop :=
  flip q2 ml 0 (longitudinal h) (-1) H0 = RtoC 0 /\ (same_v q2 ml 0 (longitudinal h) H0 + same_a q2 ml 0 (longitudinal h) H0)%C = RtoC 0 /\
  (scalar q2 ml 0 (longitudinal h) + pseudo q2 ml 0 (longitudinal h))%C = RtoC 0.
