(** * Specification for the angular distributions (C56, C115 - C120)

    Independent of the formulas of the model: the textbook construction of the decay B -> V(-> P P) l1 l2 from helicity
    amplitudes, with the rotation functions of spin one. *)
From Coq Require Import Reals.
From Coquelicot Require Import Complex.
From Verif Require Import Base Angular_Model.
Local Open Scope R_scope.

(** the angular distribution, up to 9/(32 pi), in terms of its twelve coefficients *)
Definition distribution (J : jkey -> R) (thK thl phi : R) : R :=
  J J1s * sin thK ^ 2 + J J1c * cos thK ^ 2
  + (J J2s * sin thK ^ 2 + J J2c * cos thK ^ 2) * cos (2 * thl)
  + J J3 * sin thK ^ 2 * sin thl ^ 2 * cos (2 * phi)
  + J J4 * sin (2 * thK) * sin (2 * thl) * cos phi
  + J J5 * sin (2 * thK) * sin thl * cos phi
  + (J J6s * sin thK ^ 2 + J J6c * cos thK ^ 2) * cos thl
  + J J7 * sin (2 * thK) * sin thl * sin phi
  + J J8 * sin (2 * thK) * sin (2 * thl) * sin phi
  + J J9 * sin thK ^ 2 * sin thl ^ 2 * sin (2 * phi).

(** the triangle function; the energies of the leptons in the rest frame of the pair *)
Definition triangle (x y z : R) : R := x ^ 2 + y ^ 2 + z ^ 2 - 2 * x * y - 2 * y * z - 2 * x * z.
Definition energy (q2 m m' : R) : R := (q2 + m ^ 2 - m' ^ 2) / (2 * sqrt q2).
Definition physical (q2 m1 m2 : R) : Prop := 0 <= m1 /\ 0 <= m2 /\ 0 < q2 /\ (m1 + m2) ^ 2 <= q2.
(** flux and phase space *)
Definition normalisation (q2 mB mV m1 m2 : R) : R :=
  sqrt (triangle (mB ^ 2) (mV ^ 2) q2) * sqrt (triangle q2 (m1 ^ 2) (m2 ^ 2)) / (512 * PI ^ 3 * mB ^ 3 * q2).

(** the amplitudes of a lepton pair of total helicity +1, -1 or 0, for vector and axial currents: spinor products *)
Section Leptons.
  Variables (q2 m1 m2 : R).
  Definition u1 := sqrt (energy q2 m1 m2 + m1).
  Definition w1 := sqrt (energy q2 m1 m2 - m1).
  Definition u2 := sqrt (energy q2 m2 m1 + m2).
  Definition w2 := sqrt (energy q2 m2 m1 - m2).
  Definition vT := u1 * u2 + w1 * w2.
  Definition vL := u1 * u2 - w1 * w2.
  Definition aT_ := u1 * w2 + w1 * u2.
  Definition aL := u1 * w2 - w1 * u2.
  (** lepton helicities opposite (s = 1 or -1), and equal (two combinations) *)
  Definition flip (H : amps) (s : R) (l : hel) : C :=
    (RtoC vT * aV H l + RtoC 2 * Ci * RtoC vL * aTt H l - RtoC s * (RtoC aT_ * aA H l + RtoC (sqrt 2) * Ci * RtoC aL * aT H l))%C.
  Definition same_v (H : amps) (l : hel) : C := (RtoC vL * aV H l + RtoC 2 * Ci * RtoC vT * aTt H l)%C.
  Definition same_a (H : amps) (l : hel) : C := (RtoC aL * aA H l + RtoC (sqrt 2) * Ci * RtoC aT_ * aT H l)%C.
  Definition scalar (H : amps) : C := (RtoC aT_ * aS H)%C.
  Definition pseudo (H : amps) : C := (RtoC vT * aP H)%C.
End Leptons.

(** the decay of the vector meson, and the rotation functions d^1 of the lepton pair *)
Definition decayV (l : hel) (thK : R) : R :=
  match l with H0 => cos thK | Hpl => - sin thK / sqrt 2 | Hmi => sin thK / sqrt 2 end.
Definition d_flip (l : hel) (s thl : R) : R :=
  match l with H0 => s * sin thl / sqrt 2 | Hpl => (1 + s * cos thl) / 2 | Hmi => (1 - s * cos thl) / 2 end.
Definition d_same (l : hel) (thl : R) : R :=
  match l with H0 => cos thl | Hpl => - sin thl / sqrt 2 | Hmi => sin thl / sqrt 2 end.
Definition azimuth (l : hel) (phi : R) : C :=
  match l with H0 => RtoC 1 | Hpl => (cos phi, sin phi) | Hmi => (cos phi, - sin phi) end.
Definition over_helicities (f : hel -> C) : C := (f H0 + f Hpl + f Hmi)%C.

(** the sum over the helicities of the leptons of the squared coherent sum over those of the vector meson *)
Definition helicity_sum (q2 m1 m2 : R) (H : amps) (thK thl phi : R) : R :=
  let with_flip s := over_helicities (fun l => RtoC (decayV l thK * d_flip l s thl)%R * azimuth l phi * flip q2 m1 m2 H s l)%C in
  let with_same f scal := (over_helicities (fun l => RtoC (decayV l thK * d_same l thl)%R * azimuth l phi * f H l) + RtoC (cos thK) * scal H)%C in
  Cmod (with_flip 1) ^ 2 + Cmod (with_flip (-1)) ^ 2
  + Cmod (with_same (same_v q2 m1 m2) (scalar q2 m1 m2)) ^ 2 + Cmod (with_same (same_a q2 m1 m2) (pseudo q2 m1 m2)) ^ 2.

Definition no_tensors (H : amps) : Prop := forall l, aT H l = RtoC 0 /\ aTt H l = RtoC 0.

(** ** B -> P l l *)
Definition distribution_p (J : pcoeffs) (th : R) : R := Ja J + Jb J * cos th + Jc J * cos th ^ 2.

(** total rate and forward-backward difference: integrals of the distribution over the angles *)
Definition density (J : jkey -> R) (thK thl phi : R) : R := 9 / (32 * PI) * distribution J thK thl phi * sin thK * sin thl.
(** parity: left- and right-handed quark currents are exchanged, axial lepton currents change sign *)
Definition parity (wc : wckey -> C) : wckey -> C := fun k =>
  match k with
  | Wv => wc Wvp | Wvp => wc Wv | Wa => (- wc Wap)%C | Wap => (- wc Wa)%C | Ws => wc Wsp | Wsp => wc Ws
  | Wp => (- wc Wpp)%C | Wpp => (- wc Wp)%C | W7 => wc W7p | W7p => wc W7 | Wt => wc Wtp | Wtp => wc Wt
  end.
(** the coefficients that change sign under the reflection phi -> - phi *)
Definition triple_product (k : jkey) : Prop := k = J7 \/ k = J8 \/ k = J9.
(** the amplitudes H + c H' *)
Definition amps_add (H : amps) (c : C) (H' : amps) : amps := {|
  aV := fun l => (aV H l + c * aV H' l)%C; aA := fun l => (aA H l + c * aA H' l)%C; aP := (aP H + c * aP H')%C; aS := (aS H + c * aS H')%C;
  aT := fun l => (aT H l + c * aT H' l)%C; aTt := fun l => (aTt H l + c * aTt H' l)%C |}.
Definition amps_scale (c : C) (H : amps) : amps := {|
  aV := fun l => (c * aV H l)%C; aA := fun l => (c * aA H l)%C; aP := (c * aP H)%C; aS := (c * aS H)%C;
  aT := fun l => (c * aT H l)%C; aTt := fun l => (c * aTt H l)%C |}.
(** B -> P l l: the meson selects the longitudinal polarisation *)
Definition longitudinal (h : pamps) : amps := {|
  aV := fun _ => pV h; aA := fun _ => pA h; aP := pP h; aS := pS h; aT := fun _ => pT h; aTt := fun _ => pTt h |}.
Definition helicity_sum_p (q2 m1 m2 : R) (h : pamps) (th : R) : R :=
  let H := longitudinal h in
  sin th ^ 2 / 2 * (Cmod (flip q2 m1 m2 H 1 H0) ^ 2 + Cmod (flip q2 m1 m2 H (-1) H0) ^ 2)
  + Cmod (RtoC (cos th) * same_v q2 m1 m2 H H0 - scalar q2 m1 m2 H)%C ^ 2
  + Cmod (RtoC (cos th) * same_a q2 m1 m2 H H0 - pseudo q2 m1 m2 H)%C ^ 2.
