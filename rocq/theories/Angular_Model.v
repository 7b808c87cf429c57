(** * Model of flavio/physics/bdecays/angular.py and of the functions of the angular coefficients in
    flavio/physics/bdecays/bvll/observables.py 15-108 and flavio/physics/bdecays/bpll.py 97-115

    Floats are idealised as real numbers, complex numbers as pairs of them.  The dictionaries with fixed keys
    (amplitudes, form factors, effective Wilson coefficients, angular coefficients) are records or functions of an
    enumeration; a missing key, a KeyError in Python, is not modelled.  Division by zero (q2 = 0) gives an unspecified
    number here and ZeroDivisionError in Python: the theorems exclude it.  The formulas were transcribed mechanically
    from the Python syntax tree. *)
From Coq Require Import Reals.
From Coquelicot Require Import Complex.
From Verif Require Import Base Basics_Model.
Set Implicit Arguments.
Local Open Scope R_scope.

Inductive hel := H0 | Hpl | Hmi.
(** the keys ('0','V'), ... of the dictionary of amplitudes *)
Record amps := Amps { aV : hel -> C; aA : hel -> C; aP : C; aS : C; aT : hel -> C; aTt : hel -> C }.
(** the keys of the dictionary of transversity amplitudes, of form factors and of effective Wilson coefficients *)
Inductive trans := T0_L | T0_R | Tpara_L | Tpara_R | Tperp_L | Tperp_R.
Inductive ffkey := FV | FA0 | FA1 | FA12 | FT1 | FT2 | FT23 | Fplus | Fzero | Ftens.
Inductive wckey := Wv | Wvp | Wa | Wap | Ws | Wsp | Wp | Wpp | W7 | W7p | Wt | Wtp.

(** ** Amplitudes *)
(** 11-19 [transversity_to_helicity]; the dictionary has no scalar and tensor amplitudes, which [add_dict] counts as
    zero: they are zero here *)
Definition transversity_to_helicity (ta : trans -> C) : amps := {|
    aV := fun l => match l with
      | H0 => - Ci * (ta T0_R + ta T0_L) (* 13 *)
      | Hpl => Ci * (ta Tpara_R + ta Tpara_L + (ta Tperp_R + ta Tperp_L)) / RtoC (sqrt 2)%R (* 15 *)
      | Hmi => Ci * (ta Tpara_R + ta Tpara_L - (ta Tperp_R + ta Tperp_L)) / RtoC (sqrt 2)%R (* 17 *)
      end%C;
    aA := fun l => match l with
      | H0 => - Ci * (ta T0_R - ta T0_L) (* 14 *)
      | Hpl => Ci * (ta Tpara_R - ta Tpara_L + (ta Tperp_R - ta Tperp_L)) / RtoC (sqrt 2)%R (* 16 *)
      | Hmi => Ci * (ta Tpara_R - ta Tpara_L - (ta Tperp_R - ta Tperp_L)) / RtoC (sqrt 2)%R (* 18 *)
      end%C;
    aP := RtoC 0; aS := RtoC 0; aT := fun _ => RtoC 0; aTt := fun _ => RtoC 0 |}.
(** 21-38 [helicity_amps_v] *)
Definition helicity_amps_v (q2 mB mV mqh mql ml1 ml2 : R) (ff : ffkey -> R) (wc : wckey -> C) (prefactor : C) : amps :=
  let laB := lambda_K (mB ^ 2) (mV ^ 2) q2 in {|
    aV := fun l => match l with
      | H0 => prefactor * (RtoC 4 * Ci * RtoC mB * RtoC mV / RtoC (sqrt q2 * (mB + mV))%R * ((wc Wv - wc Wvp) * RtoC (mB + mV)%R *
          RtoC (ff FA12)%R + RtoC mqh * (wc W7 - wc W7p) * RtoC (ff FT23)%R)) (* 24 *)
      | Hpl => prefactor * (Ci / RtoC (2 * (mB + mV))%R * ((wc Wv + wc Wvp) * RtoC (sqrt laB)%R * RtoC (ff FV)%R - RtoC ((mB + mV) ^
          2)%R * (wc Wv - wc Wvp) * RtoC (ff FA1)%R) + Ci * RtoC mqh / RtoC q2 * ((wc W7 + wc W7p) * RtoC (sqrt laB)%R * RtoC (ff
          FT1)%R - (wc W7 - wc W7p) * RtoC (mB ^ 2 - mV ^ 2)%R * RtoC (ff FT2)%R)) (* 26 *)
      | Hmi => prefactor * (Ci / RtoC (2 * (mB + mV))%R * (- (wc Wv + wc Wvp) * RtoC (sqrt laB)%R * RtoC (ff FV)%R - RtoC ((mB + mV) ^
          2)%R * (wc Wv - wc Wvp) * RtoC (ff FA1)%R) + Ci * RtoC mqh / RtoC q2 * (- (wc W7 + wc W7p) * RtoC (sqrt laB)%R * RtoC
          (ff FT1)%R - (wc W7 - wc W7p) * RtoC (mB ^ 2 - mV ^ 2)%R * RtoC (ff FT2)%R)) (* 27 *)
      end%C;
    aA := fun l => match l with
      | H0 => prefactor * (RtoC 4 * Ci * RtoC mB * RtoC mV / RtoC (sqrt q2)%R * (wc Wa - wc Wap) * RtoC (ff FA12)%R) (* 25 *)
      | Hpl => prefactor * (Ci / RtoC (2 * (mB + mV))%R * ((wc Wa + wc Wap) * RtoC (sqrt laB)%R * RtoC (ff FV)%R - RtoC ((mB + mV) ^
          2)%R * (wc Wa - wc Wap) * RtoC (ff FA1)%R)) (* 28 *)
      | Hmi => prefactor * (Ci / RtoC (2 * (mB + mV))%R * (- (wc Wa + wc Wap) * RtoC (sqrt laB)%R * RtoC (ff FV)%R - RtoC ((mB + mV) ^
          2)%R * (wc Wa - wc Wap) * RtoC (ff FA1)%R)) (* 29 *)
      end%C;
    aP := (prefactor * (Ci * RtoC (sqrt laB)%R / RtoC 2 * ((wc Wp - wc Wpp) / RtoC (mqh + mql)%R + RtoC ((ml1 + ml2) / q2)%R * (wc Wa -
      wc Wap)) * RtoC (ff FA0)%R) (* 30 *))%C;
    aS := (prefactor * (Ci * RtoC (sqrt laB)%R / RtoC 2 * ((wc Ws - wc Wsp) / RtoC (mqh + mql)%R + RtoC ((ml1 - ml2) / q2)%R * (wc Wv -
      wc Wvp)) * RtoC (ff FA0)%R) (* 31 *))%C;
    aT := fun l => match l with
      | H0 => prefactor * (RtoC (2 * sqrt 2 * mB * mV / (mB + mV))%R * (wc Wt + wc Wtp) * RtoC (ff FT23)%R) (* 32 *)
      | Hpl => prefactor * (RtoC (1 / (sqrt 2 * sqrt q2))%R * ((wc Wt - wc Wtp) * RtoC (sqrt laB)%R * RtoC (ff FT1)%R - (wc Wt + wc
          Wtp) * RtoC (mB ^ 2 - mV ^ 2)%R * RtoC (ff FT2)%R)) (* 34 *)
      | Hmi => prefactor * (RtoC (1 / (sqrt 2 * sqrt q2))%R * (- (wc Wt - wc Wtp) * RtoC (sqrt laB)%R * RtoC (ff FT1)%R - (wc Wt + wc
          Wtp) * RtoC (mB ^ 2 - mV ^ 2)%R * RtoC (ff FT2)%R)) (* 35 *)
      end%C;
    aTt := fun l => match l with
      | H0 => prefactor * (RtoC (2 * mB * mV / (mB + mV))%R * (wc Wt - wc Wtp) * RtoC (ff FT23)%R) (* 33 *)
      | Hpl => prefactor * (RtoC (1 / (2 * sqrt q2))%R * ((wc Wt + wc Wtp) * RtoC (sqrt laB)%R * RtoC (ff FT1)%R - (wc Wt - wc Wtp) *
          RtoC (mB ^ 2 - mV ^ 2)%R * RtoC (ff FT2)%R)) (* 36 *)
      | Hmi => prefactor * (RtoC (1 / (2 * sqrt q2))%R * (- (wc Wt + wc Wtp) * RtoC (sqrt laB)%R * RtoC (ff FT1)%R - (wc Wt - wc Wtp) *
          RtoC (mB ^ 2 - mV ^ 2)%R * RtoC (ff FT2)%R)) (* 37 *)
      end%C |}.

(** ** The angular coefficients of B -> V l l *)
(** the keys (0,0,0), ... of the dictionary G *)
Record gbasis := GBasis { G000 : R; G010 : R; G020 : R; G200 : R; G210 : R; G220 : R; G211 : C; G221 : C; G222 : C }.
Definition gscale (p : R) (G : gbasis) : gbasis := {|
    G000 := p * G000 G; G010 := p * G010 G; G020 := p * G020 G; G200 := p * G200 G; G210 := p * G210 G; G220 := p * G220 G;
    G211 := (RtoC p * G211 G)%C; G221 := (RtoC p * G221 G)%C; G222 := (RtoC p * G222 G)%C |}.
(** 99, 156, 224 *)
Definition phase_space (q2 mB laB laGa : R) : R := sqrt laB * sqrt laGa / (2 ^ 9 * PI ^ 3 * mB ^ 3 * q2).
(** 47-100 [angularcoeffs_general_Gbasis_v]; the arguments mqh and mql are not used *)
Definition angularcoeffs_general_Gbasis_v (H : amps) (q2 mB mV ml1 ml2 : R) : gbasis :=
  let laB := lambda_K (mB ^ 2) (mV ^ 2) q2 in
  let laGa := lambda_K q2 (ml1 ^ 2) (ml2 ^ 2) in
  let E1 := sqrt (ml1 ^ 2 + laGa / (4 * q2)) in
  let E2 := sqrt (ml2 ^ 2 + laGa / (4 * q2)) in
  gscale (phase_space q2 mB laB laGa) {|
    (* 54-61 *)
    G000 := 4 / 9 * (3 * E1 * E2 + laGa / (4 * q2)) * (Cmod (aV H Hpl)%C ^ 2 + Cmod (aV H Hmi)%C ^ 2 + Cmod (aV H H0)%C ^ 2 + Cmod (aA H
      Hpl)%C ^ 2 + Cmod (aA H Hmi)%C ^ 2 + Cmod (aA H H0)%C ^ 2) + 4 * ml1 * ml2 / 3 * (Cmod (aV H Hpl)%C ^ 2 + Cmod (aV H Hmi)%C
      ^ 2 + Cmod (aV H H0)%C ^ 2 - Cmod (aA H Hpl)%C ^ 2 - Cmod (aA H Hmi)%C ^ 2 - Cmod (aA H H0)%C ^ 2) + 4 / 3 * (E1 * E2 - ml1
      * ml2 + laGa / (4 * q2)) * Cmod (aS H)%C ^ 2 + 4 / 3 * (E1 * E2 + ml1 * ml2 + laGa / (4 * q2)) * Cmod (aP H)%C ^ 2 + 16 / 9
      * (3 * (E1 * E2 + ml1 * ml2) - laGa / (4 * q2)) * (Cmod (aTt H Hpl)%C ^ 2 + Cmod (aTt H Hmi)%C ^ 2 + Cmod (aTt H H0)%C ^ 2)
      + 8 / 9 * (3 * (E1 * E2 - ml1 * ml2) - laGa / (4 * q2)) * (Cmod (aT H Hpl)%C ^ 2 + Cmod (aT H Hmi)%C ^ 2 + Cmod (aT H H0)%C
      ^ 2) + 16 / 3 * (ml1 * E2 + ml2 * E1) * snd (aV H Hpl * Cconj (aTt H Hpl) + aV H Hmi * Cconj (aTt H Hmi) + aV H H0 * Cconj
      (aTt H H0))%C + 8 * sqrt 2 / 3 * (ml1 * E2 - ml2 * E1) * snd (aA H Hpl * Cconj (aT H Hpl) + aA H Hmi * Cconj (aT H Hmi) + aA
      H H0 * Cconj (aT H H0))%C;
    (* 62-69 *)
    G010 := 4 * sqrt laGa / 3 * (fst (aV H Hpl * Cconj (aA H Hpl) - aV H Hmi * Cconj (aA H Hmi))%C + 2 * sqrt 2 / q2 * (ml1 ^ 2 - ml2 ^
      2) * fst (aT H Hpl * Cconj (aTt H Hpl) - aT H Hmi * Cconj (aTt H Hmi))%C + 2 * (ml1 + ml2) / sqrt q2 * snd (aA H Hpl * Cconj
      (aTt H Hpl) - aA H Hmi * Cconj (aTt H Hmi))%C + sqrt 2 * (ml1 - ml2) / sqrt q2 * snd (aV H Hpl * Cconj (aT H Hpl) - aV H Hmi
      * Cconj (aT H Hmi))%C - (ml1 - ml2) / sqrt q2 * fst (aA H H0 * Cconj (aP H))%C - (ml1 + ml2) / sqrt q2 * fst (aV H H0 *
      Cconj (aS H))%C + snd (RtoC (sqrt 2)%R * aT H H0 * Cconj (aP H) + RtoC 2 * aTt H H0 * Cconj (aS H))%C);
    (* 70-72 *)
    G020 := - 2 / 9 * laGa / q2 * (- Cmod (aV H Hpl)%C ^ 2 - Cmod (aV H Hmi)%C ^ 2 + 2 * Cmod (aV H H0)%C ^ 2 - Cmod (aA H Hpl)%C ^ 2 -
      Cmod (aA H Hmi)%C ^ 2 + 2 * Cmod (aA H H0)%C ^ 2 - 2 * (- Cmod (aT H Hpl)%C ^ 2 - Cmod (aT H Hmi)%C ^ 2 + 2 * Cmod (aT H
      H0)%C ^ 2) - 4 * (- Cmod (aTt H Hpl)%C ^ 2 - Cmod (aTt H Hmi)%C ^ 2 + 2 * Cmod (aTt H H0)%C ^ 2));
    (* 73-80 *)
    G200 := - 4 / 9 * (3 * E1 * E2 + laGa / (4 * q2)) * (Cmod (aV H Hpl)%C ^ 2 + Cmod (aV H Hmi)%C ^ 2 - 2 * Cmod (aV H H0)%C ^ 2 + Cmod
      (aA H Hpl)%C ^ 2 + Cmod (aA H Hmi)%C ^ 2 - 2 * Cmod (aA H H0)%C ^ 2) - 4 * ml1 * ml2 / 3 * (Cmod (aV H Hpl)%C ^ 2 + Cmod (aV
      H Hmi)%C ^ 2 - 2 * Cmod (aV H H0)%C ^ 2 - Cmod (aA H Hpl)%C ^ 2 - Cmod (aA H Hmi)%C ^ 2 + 2 * Cmod (aA H H0)%C ^ 2) + 8 / 3
      * (E1 * E2 - ml1 * ml2 + laGa / (4 * q2)) * Cmod (aS H)%C ^ 2 + 8 / 3 * (E1 * E2 + ml1 * ml2 + laGa / (4 * q2)) * Cmod (aP
      H)%C ^ 2 - 16 / 9 * (3 * (E1 * E2 + ml1 * ml2) - laGa / (4 * q2)) * (Cmod (aTt H Hpl)%C ^ 2 + Cmod (aTt H Hmi)%C ^ 2 - 2 *
      Cmod (aTt H H0)%C ^ 2) - 8 / 9 * (3 * (E1 * E2 - ml1 * ml2) - laGa / (4 * q2)) * (Cmod (aT H Hpl)%C ^ 2 + Cmod (aT H Hmi)%C
      ^ 2 - 2 * Cmod (aT H H0)%C ^ 2) - 16 / 3 * (ml1 * E2 + ml2 * E1) * snd (aV H Hpl * Cconj (aTt H Hpl) + aV H Hmi * Cconj (aTt
      H Hmi) - RtoC 2 * aV H H0 * Cconj (aTt H H0))%C - 8 * sqrt 2 / 3 * (ml1 * E2 - ml2 * E1) * snd (aA H Hpl * Cconj (aT H Hpl)
      + aA H Hmi * Cconj (aT H Hmi) - RtoC 2 * aA H H0 * Cconj (aT H H0))%C;
    (* 81-86 *)
    G210 := - 4 * sqrt laGa / 3 * (fst (aV H Hpl * Cconj (aA H Hpl) - aV H Hmi * Cconj (aA H Hmi))%C + 2 * sqrt 2 * (ml1 ^ 2 - ml2 ^ 2)
      / q2 * fst (aT H Hpl * Cconj (aTt H Hpl) - aT H Hmi * Cconj (aTt H Hmi))%C + 2 * (ml1 + ml2) / sqrt q2 * snd (aA H Hpl *
      Cconj (aTt H Hpl) - aA H Hmi * Cconj (aTt H Hmi))%C + sqrt 2 * (ml1 - ml2) / sqrt q2 * snd (aV H Hpl * Cconj (aT H Hpl) - aV
      H Hmi * Cconj (aT H Hmi))%C + 2 * (ml1 - ml2) / sqrt q2 * fst (aA H H0 * Cconj (aP H))%C + 2 * (ml1 + ml2) / sqrt q2 * fst
      (aV H H0 * Cconj (aS H))%C - 2 * snd (RtoC (sqrt 2)%R * aT H H0 * Cconj (aP H) + RtoC 2 * aTt H H0 * Cconj (aS H))%C);
    (* 87-88 *)
    G220 := - 2 / 9 * laGa / q2 * (Cmod (aV H Hpl)%C ^ 2 + Cmod (aV H Hmi)%C ^ 2 + 4 * Cmod (aV H H0)%C ^ 2 + Cmod (aA H Hpl)%C ^ 2 +
      Cmod (aA H Hmi)%C ^ 2 + 4 * Cmod (aA H H0)%C ^ 2 - 2 * (Cmod (aT H Hpl)%C ^ 2 + Cmod (aT H Hmi)%C ^ 2 + 4 * Cmod (aT H H0)%C
      ^ 2) - 4 * (Cmod (aTt H Hpl)%C ^ 2 + Cmod (aTt H Hmi)%C ^ 2 + 4 * Cmod (aTt H H0)%C ^ 2));
    (* 89-95 *)
    G211 := (RtoC (4 / sqrt 3 * sqrt laGa)%R * (aV H Hpl * Cconj (aA H H0) + aA H Hpl * Cconj (aV H H0) - aV H H0 * Cconj (aA H Hmi) -
      aA H H0 * Cconj (aV H Hmi) + RtoC ((ml1 + ml2) / sqrt q2)%R * (aV H Hpl * Cconj (aS H) + aS H * Cconj (aV H Hmi)) - RtoC
      (sqrt 2)%R * Ci * (aP H * Cconj (aT H Hmi) - aT H Hpl * Cconj (aP H) + RtoC (sqrt 2)%R * (aS H * Cconj (aTt H Hmi) - aTt H
      Hpl * Cconj (aS H))) + RtoC ((ml1 - ml2) / sqrt q2)%R * (aA H Hpl * Cconj (aP H) + aP H * Cconj (aA H Hmi)) - RtoC 2 * Ci *
      RtoC (ml1 + ml2)%R / RtoC (sqrt q2)%R * (aA H Hpl * Cconj (aTt H H0) + aTt H H0 * Cconj (aA H Hmi) - aTt H Hpl * Cconj (aA H
      H0) - aA H H0 * Cconj (aTt H Hmi)) - RtoC (sqrt 2)%R * Ci * RtoC (ml1 - ml2)%R / RtoC (sqrt q2)%R * (aV H Hpl * Cconj (aT H
      H0) + aT H H0 * Cconj (aV H Hmi) - aT H Hpl * Cconj (aV H H0) - aV H H0 * Cconj (aT H Hmi)) + RtoC (2 * sqrt 2 * (ml1 ^ 2 -
      ml2 ^ 2) / q2)%R * (aT H Hpl * Cconj (aTt H H0) + aTt H Hpl * Cconj (aT H H0) - aT H H0 * Cconj (aTt H Hmi) - aTt H H0 *
      Cconj (aT H Hmi))))%C;
    (* 96-97 *)
    G221 := (RtoC (4 / 3 * laGa / q2)%R * (aV H Hpl * Cconj (aV H H0) + aV H H0 * Cconj (aV H Hmi) + aA H Hpl * Cconj (aA H H0) + aA H
      H0 * Cconj (aA H Hmi) - RtoC 2 * (aT H Hpl * Cconj (aT H H0) + aT H H0 * Cconj (aT H Hmi) + RtoC 2 * (aTt H Hpl * Cconj (aTt
      H H0) + aTt H H0 * Cconj (aTt H Hmi)))))%C;
    (* 98 *)
    G222 := (RtoC (- 8 / 3 * laGa / q2)%R * (aV H Hpl * Cconj (aV H Hmi) + aA H Hpl * Cconj (aA H Hmi) - RtoC 2 * (aT H Hpl * Cconj (aT
      H Hmi) + RtoC 2 * aTt H Hpl * Cconj (aTt H Hmi))))%C |}.
(** 102-157 [angularcoeffs_h_Gbasis_v] *)
Definition angularcoeffs_h_Gbasis_v (phi : R) (H Ht : amps) (q2 mB mV ml1 ml2 : R) : gbasis :=
  let qp := (- (cos phi, sin phi))%C in
  let laB := lambda_K (mB ^ 2) (mV ^ 2) q2 in
  let laGa := lambda_K q2 (ml1 ^ 2) (ml2 ^ 2) in
  let E1 := sqrt (ml1 ^ 2 + laGa / (4 * q2)) in
  let E2 := sqrt (ml2 ^ 2 + laGa / (4 * q2)) in
  gscale (phase_space q2 mB laB laGa) {|
    (* 111-118 *)
    G000 := 4 / 9 * (3 * E1 * E2 + laGa / (4 * q2)) * (2 * fst (- qp * aV Ht Hpl * Cconj (aV H Hpl))%C + 2 * fst (- qp * aV Ht Hmi *
      Cconj (aV H Hmi))%C + 2 * fst (- qp * aV Ht H0 * Cconj (aV H H0))%C + 2 * fst (- qp * aA Ht Hpl * Cconj (aA H Hpl))%C + 2 *
      fst (- qp * aA Ht Hmi * Cconj (aA H Hmi))%C + 2 * fst (- qp * aA Ht H0 * Cconj (aA H H0))%C) + 4 * ml1 * ml2 / 3 * (2 * fst
      (- qp * aV Ht Hpl * Cconj (aV H Hpl))%C + 2 * fst (- qp * aV Ht Hmi * Cconj (aV H Hmi))%C + 2 * fst (- qp * aV Ht H0 * Cconj
      (aV H H0))%C - 2 * fst (- qp * aA Ht Hpl * Cconj (aA H Hpl))%C - 2 * fst (- qp * aA Ht Hmi * Cconj (aA H Hmi))%C - 2 * fst
      (- qp * aA Ht H0 * Cconj (aA H H0))%C) + 4 / 3 * (E1 * E2 - ml1 * ml2 + laGa / (4 * q2)) * 2 * fst (- qp * aS Ht * Cconj (aS
      H))%C + 4 / 3 * (E1 * E2 + ml1 * ml2 + laGa / (4 * q2)) * 2 * fst (- qp * aP Ht * Cconj (aP H))%C + 16 / 9 * (3 * (E1 * E2 +
      ml1 * ml2) - laGa / (4 * q2)) * (2 * fst (- qp * aTt Ht Hpl * Cconj (aTt H Hpl))%C + 2 * fst (- qp * aTt Ht Hmi * Cconj (aTt
      H Hmi))%C + 2 * fst (- qp * aTt Ht H0 * Cconj (aTt H H0))%C) + 8 / 9 * (3 * (E1 * E2 - ml1 * ml2) - laGa / (4 * q2)) * (2 *
      fst (- qp * aT Ht Hpl * Cconj (aT H Hpl))%C + 2 * fst (- qp * aT Ht Hmi * Cconj (aT H Hmi))%C + 2 * fst (- qp * aT Ht H0 *
      Cconj (aT H H0))%C) + 16 / 3 * (ml1 * E2 + ml2 * E1) * snd (- qp * aV Ht Hpl * Cconj (aTt H Hpl) + Cconj (- qp)%C * aV H Hpl
      * Cconj (aTt Ht Hpl) + (- qp * aV Ht Hmi * Cconj (aTt H Hmi) + Cconj (- qp)%C * aV H Hmi * Cconj (aTt Ht Hmi)) + (- qp * aV
      Ht H0 * Cconj (aTt H H0) + Cconj (- qp)%C * aV H H0 * Cconj (aTt Ht H0)))%C + 8 * sqrt 2 / 3 * (ml1 * E2 - ml2 * E1) * snd
      (- qp * aA Ht Hpl * Cconj (aT H Hpl) + Cconj (- qp)%C * aA H Hpl * Cconj (aT Ht Hpl) + (- qp * aA Ht Hmi * Cconj (aT H Hmi)
      + Cconj (- qp)%C * aA H Hmi * Cconj (aT Ht Hmi)) + (- qp * aA Ht H0 * Cconj (aT H H0) + Cconj (- qp)%C * aA H H0 * Cconj (aT
      Ht H0)))%C;
    (* 119-126 *)
    G010 := 4 * sqrt laGa / 3 * (fst (- qp * aV Ht Hpl * Cconj (aA H Hpl) + Cconj (- qp)%C * aV H Hpl * Cconj (aA Ht Hpl) - (- qp * aV
      Ht Hmi * Cconj (aA H Hmi) + Cconj (- qp)%C * aV H Hmi * Cconj (aA Ht Hmi)))%C + 2 * sqrt 2 / q2 * (ml1 ^ 2 - ml2 ^ 2) * fst
      (- qp * aT Ht Hpl * Cconj (aTt H Hpl) + Cconj (- qp)%C * aT H Hpl * Cconj (aTt Ht Hpl) - (- qp * aT Ht Hmi * Cconj (aTt H
      Hmi) + Cconj (- qp)%C * aT H Hmi * Cconj (aTt Ht Hmi)))%C + 2 * (ml1 + ml2) / sqrt q2 * snd (- qp * aA Ht Hpl * Cconj (aTt H
      Hpl) + Cconj (- qp)%C * aA H Hpl * Cconj (aTt Ht Hpl) - (- qp * aA Ht Hmi * Cconj (aTt H Hmi) + Cconj (- qp)%C * aA H Hmi *
      Cconj (aTt Ht Hmi)))%C + sqrt 2 * (ml1 - ml2) / sqrt q2 * snd (- qp * aV Ht Hpl * Cconj (aT H Hpl) + Cconj (- qp)%C * aV H
      Hpl * Cconj (aT Ht Hpl) - (- qp * aV Ht Hmi * Cconj (aT H Hmi) + Cconj (- qp)%C * aV H Hmi * Cconj (aT Ht Hmi)))%C - (ml1 -
      ml2) / sqrt q2 * fst (- qp * aA Ht H0 * Cconj (aP H) + Cconj (- qp)%C * aA H H0 * Cconj (aP Ht))%C - (ml1 + ml2) / sqrt q2 *
      fst (- qp * aV Ht H0 * Cconj (aS H) + Cconj (- qp)%C * aV H H0 * Cconj (aS Ht))%C + snd (RtoC (sqrt 2)%R * (- qp * aT Ht H0
      * Cconj (aP H) + Cconj (- qp)%C * aT H H0 * Cconj (aP Ht)) + RtoC 2 * (- qp * aTt Ht H0 * Cconj (aS H) + Cconj (- qp)%C *
      aTt H H0 * Cconj (aS Ht)))%C);
    (* 127-129 *)
    G020 := - 2 / 9 * laGa / q2 * (- 2 * fst (- qp * aV Ht Hpl * Cconj (aV H Hpl))%C - 2 * fst (- qp * aV Ht Hmi * Cconj (aV H Hmi))%C +
      2 * 2 * fst (- qp * aV Ht H0 * Cconj (aV H H0))%C - 2 * fst (- qp * aA Ht Hpl * Cconj (aA H Hpl))%C - 2 * fst (- qp * aA Ht
      Hmi * Cconj (aA H Hmi))%C + 2 * 2 * fst (- qp * aA Ht H0 * Cconj (aA H H0))%C - 2 * (- 2 * fst (- qp * aT Ht Hpl * Cconj (aT
      H Hpl))%C - 2 * fst (- qp * aT Ht Hmi * Cconj (aT H Hmi))%C + 2 * 2 * fst (- qp * aT Ht H0 * Cconj (aT H H0))%C) - 4 * (- 2
      * fst (- qp * aTt Ht Hpl * Cconj (aTt H Hpl))%C - 2 * fst (- qp * aTt Ht Hmi * Cconj (aTt H Hmi))%C + 2 * 2 * fst (- qp *
      aTt Ht H0 * Cconj (aTt H H0))%C));
    (* 130-137 *)
    G200 := - 4 / 9 * (3 * E1 * E2 + laGa / (4 * q2)) * (2 * fst (- qp * aV Ht Hpl * Cconj (aV H Hpl))%C + 2 * fst (- qp * aV Ht Hmi *
      Cconj (aV H Hmi))%C - 2 * 2 * fst (- qp * aV Ht H0 * Cconj (aV H H0))%C + 2 * fst (- qp * aA Ht Hpl * Cconj (aA H Hpl))%C +
      2 * fst (- qp * aA Ht Hmi * Cconj (aA H Hmi))%C - 2 * 2 * fst (- qp * aA Ht H0 * Cconj (aA H H0))%C) - 4 * ml1 * ml2 / 3 *
      (2 * fst (- qp * aV Ht Hpl * Cconj (aV H Hpl))%C + 2 * fst (- qp * aV Ht Hmi * Cconj (aV H Hmi))%C - 2 * 2 * fst (- qp * aV
      Ht H0 * Cconj (aV H H0))%C - 2 * fst (- qp * aA Ht Hpl * Cconj (aA H Hpl))%C - 2 * fst (- qp * aA Ht Hmi * Cconj (aA H
      Hmi))%C + 2 * 2 * fst (- qp * aA Ht H0 * Cconj (aA H H0))%C) + 8 / 3 * (E1 * E2 - ml1 * ml2 + laGa / (4 * q2)) * 2 * fst (-
      qp * aS Ht * Cconj (aS H))%C + 8 / 3 * (E1 * E2 + ml1 * ml2 + laGa / (4 * q2)) * 2 * fst (- qp * aP Ht * Cconj (aP H))%C -
      16 / 9 * (3 * (E1 * E2 + ml1 * ml2) - laGa / (4 * q2)) * (2 * fst (- qp * aTt Ht Hpl * Cconj (aTt H Hpl))%C + 2 * fst (- qp
      * aTt Ht Hmi * Cconj (aTt H Hmi))%C - 2 * 2 * fst (- qp * aTt Ht H0 * Cconj (aTt H H0))%C) - 8 / 9 * (3 * (E1 * E2 - ml1 *
      ml2) - laGa / (4 * q2)) * (2 * fst (- qp * aT Ht Hpl * Cconj (aT H Hpl))%C + 2 * fst (- qp * aT Ht Hmi * Cconj (aT H Hmi))%C
      - 2 * 2 * fst (- qp * aT Ht H0 * Cconj (aT H H0))%C) - 16 / 3 * (ml1 * E2 + ml2 * E1) * snd (- qp * aV Ht Hpl * Cconj (aTt H
      Hpl) + Cconj (- qp)%C * aV H Hpl * Cconj (aTt Ht Hpl) + (- qp * aV Ht Hmi * Cconj (aTt H Hmi) + Cconj (- qp)%C * aV H Hmi *
      Cconj (aTt Ht Hmi)) - RtoC 2 * (- qp * aV Ht H0 * Cconj (aTt H H0) + Cconj (- qp)%C * aV H H0 * Cconj (aTt Ht H0)))%C - 8 *
      sqrt 2 / 3 * (ml1 * E2 - ml2 * E1) * snd (- qp * aA Ht Hpl * Cconj (aT H Hpl) + Cconj (- qp)%C * aA H Hpl * Cconj (aT Ht
      Hpl) + (- qp * aA Ht Hmi * Cconj (aT H Hmi) + Cconj (- qp)%C * aA H Hmi * Cconj (aT Ht Hmi)) - RtoC 2 * (- qp * aA Ht H0 *
      Cconj (aT H H0) + Cconj (- qp)%C * aA H H0 * Cconj (aT Ht H0)))%C;
    (* 138-143 *)
    G210 := - 4 * sqrt laGa / 3 * (fst (- qp * aV Ht Hpl * Cconj (aA H Hpl) + Cconj (- qp)%C * aV H Hpl * Cconj (aA Ht Hpl) - (- qp * aV
      Ht Hmi * Cconj (aA H Hmi) + Cconj (- qp)%C * aV H Hmi * Cconj (aA Ht Hmi)))%C + 2 * sqrt 2 * (ml1 ^ 2 - ml2 ^ 2) / q2 * fst
      (- qp * aT Ht Hpl * Cconj (aTt H Hpl) + Cconj (- qp)%C * aT H Hpl * Cconj (aTt Ht Hpl) - (- qp * aT Ht Hmi * Cconj (aTt H
      Hmi) + Cconj (- qp)%C * aT H Hmi * Cconj (aTt Ht Hmi)))%C + 2 * (ml1 + ml2) / sqrt q2 * snd (- qp * aA Ht Hpl * Cconj (aTt H
      Hpl) + Cconj (- qp)%C * aA H Hpl * Cconj (aTt Ht Hpl) - (- qp * aA Ht Hmi * Cconj (aTt H Hmi) + Cconj (- qp)%C * aA H Hmi *
      Cconj (aTt Ht Hmi)))%C + sqrt 2 * (ml1 - ml2) / sqrt q2 * snd (- qp * aV Ht Hpl * Cconj (aT H Hpl) + Cconj (- qp)%C * aV H
      Hpl * Cconj (aT Ht Hpl) - (- qp * aV Ht Hmi * Cconj (aT H Hmi) + Cconj (- qp)%C * aV H Hmi * Cconj (aT Ht Hmi)))%C + 2 *
      (ml1 - ml2) / sqrt q2 * fst (- qp * aA Ht H0 * Cconj (aP H) + Cconj (- qp)%C * aA H H0 * Cconj (aP Ht))%C + 2 * (ml1 + ml2)
      / sqrt q2 * fst (- qp * aV Ht H0 * Cconj (aS H) + Cconj (- qp)%C * aV H H0 * Cconj (aS Ht))%C - 2 * snd (RtoC (sqrt 2)%R *
      (- qp * aT Ht H0 * Cconj (aP H) + Cconj (- qp)%C * aT H H0 * Cconj (aP Ht)) + RtoC 2 * (- qp * aTt Ht H0 * Cconj (aS H) +
      Cconj (- qp)%C * aTt H H0 * Cconj (aS Ht)))%C);
    (* 144-145 *)
    G220 := - 2 / 9 * laGa / q2 * (2 * fst (- qp * aV Ht Hpl * Cconj (aV H Hpl))%C + 2 * fst (- qp * aV Ht Hmi * Cconj (aV H Hmi))%C + 4
      * 2 * fst (- qp * aV Ht H0 * Cconj (aV H H0))%C + 2 * fst (- qp * aA Ht Hpl * Cconj (aA H Hpl))%C + 2 * fst (- qp * aA Ht
      Hmi * Cconj (aA H Hmi))%C + 4 * 2 * fst (- qp * aA Ht H0 * Cconj (aA H H0))%C - 2 * (2 * fst (- qp * aT Ht Hpl * Cconj (aT H
      Hpl))%C + 2 * fst (- qp * aT Ht Hmi * Cconj (aT H Hmi))%C + 4 * 2 * fst (- qp * aT Ht H0 * Cconj (aT H H0))%C) - 4 * (2 *
      fst (- qp * aTt Ht Hpl * Cconj (aTt H Hpl))%C + 2 * fst (- qp * aTt Ht Hmi * Cconj (aTt H Hmi))%C + 4 * 2 * fst (- qp * aTt
      Ht H0 * Cconj (aTt H H0))%C));
    (* 146-152 *)
    G211 := (RtoC (4 / sqrt 3 * sqrt laGa)%R * (- qp * aV Ht Hpl * Cconj (aA H H0) + Cconj (- qp)%C * aV H Hpl * Cconj (aA Ht H0) + (-
      qp * aA Ht Hpl * Cconj (aV H H0) + Cconj (- qp)%C * aA H Hpl * Cconj (aV Ht H0)) - (- qp * aV Ht H0 * Cconj (aA H Hmi) +
      Cconj (- qp)%C * aV H H0 * Cconj (aA Ht Hmi)) - (- qp * aA Ht H0 * Cconj (aV H Hmi) + Cconj (- qp)%C * aA H H0 * Cconj (aV
      Ht Hmi)) + RtoC ((ml1 + ml2) / sqrt q2)%R * (- qp * aV Ht Hpl * Cconj (aS H) + Cconj (- qp)%C * aV H Hpl * Cconj (aS Ht) +
      (- qp * aS Ht * Cconj (aV H Hmi) + Cconj (- qp)%C * aS H * Cconj (aV Ht Hmi))) - RtoC (sqrt 2)%R * Ci * (- qp * aP Ht *
      Cconj (aT H Hmi) + Cconj (- qp)%C * aP H * Cconj (aT Ht Hmi) - (- qp * aT Ht Hpl * Cconj (aP H) + Cconj (- qp)%C * aT H Hpl
      * Cconj (aP Ht)) + RtoC (sqrt 2)%R * (- qp * aS Ht * Cconj (aTt H Hmi) + Cconj (- qp)%C * aS H * Cconj (aTt Ht Hmi) - (- qp
      * aTt Ht Hpl * Cconj (aS H) + Cconj (- qp)%C * aTt H Hpl * Cconj (aS Ht)))) + RtoC ((ml1 - ml2) / sqrt q2)%R * (- qp * aA Ht
      Hpl * Cconj (aP H) + Cconj (- qp)%C * aA H Hpl * Cconj (aP Ht) + (- qp * aP Ht * Cconj (aA H Hmi) + Cconj (- qp)%C * aP H *
      Cconj (aA Ht Hmi))) - RtoC 2 * Ci * RtoC (ml1 + ml2)%R / RtoC (sqrt q2)%R * (- qp * aA Ht Hpl * Cconj (aTt H H0) + Cconj (-
      qp)%C * aA H Hpl * Cconj (aTt Ht H0) + (- qp * aTt Ht H0 * Cconj (aA H Hmi) + Cconj (- qp)%C * aTt H H0 * Cconj (aA Ht Hmi))
      - (- qp * aTt Ht Hpl * Cconj (aA H H0) + Cconj (- qp)%C * aTt H Hpl * Cconj (aA Ht H0)) - (- qp * aA Ht H0 * Cconj (aTt H
      Hmi) + Cconj (- qp)%C * aA H H0 * Cconj (aTt Ht Hmi))) - RtoC (sqrt 2)%R * Ci * RtoC (ml1 - ml2)%R / RtoC (sqrt q2)%R * (-
      qp * aV Ht Hpl * Cconj (aT H H0) + Cconj (- qp)%C * aV H Hpl * Cconj (aT Ht H0) + (- qp * aT Ht H0 * Cconj (aV H Hmi) +
      Cconj (- qp)%C * aT H H0 * Cconj (aV Ht Hmi)) - (- qp * aT Ht Hpl * Cconj (aV H H0) + Cconj (- qp)%C * aT H Hpl * Cconj (aV
      Ht H0)) - (- qp * aV Ht H0 * Cconj (aT H Hmi) + Cconj (- qp)%C * aV H H0 * Cconj (aT Ht Hmi))) + RtoC (2 * sqrt 2 * (ml1 ^ 2
      - ml2 ^ 2) / q2)%R * (- qp * aT Ht Hpl * Cconj (aTt H H0) + Cconj (- qp)%C * aT H Hpl * Cconj (aTt Ht H0) + (- qp * aTt Ht
      Hpl * Cconj (aT H H0) + Cconj (- qp)%C * aTt H Hpl * Cconj (aT Ht H0)) - (- qp * aT Ht H0 * Cconj (aTt H Hmi) + Cconj (-
      qp)%C * aT H H0 * Cconj (aTt Ht Hmi)) - (- qp * aTt Ht H0 * Cconj (aT H Hmi) + Cconj (- qp)%C * aTt H H0 * Cconj (aT Ht
      Hmi)))))%C;
    (* 153-154 *)
    G221 := (RtoC (4 / 3 * laGa / q2)%R * (- qp * aV Ht Hpl * Cconj (aV H H0) + Cconj (- qp)%C * aV H Hpl * Cconj (aV Ht H0) + (- qp *
      aV Ht H0 * Cconj (aV H Hmi) + Cconj (- qp)%C * aV H H0 * Cconj (aV Ht Hmi)) + (- qp * aA Ht Hpl * Cconj (aA H H0) + Cconj (-
      qp)%C * aA H Hpl * Cconj (aA Ht H0)) + (- qp * aA Ht H0 * Cconj (aA H Hmi) + Cconj (- qp)%C * aA H H0 * Cconj (aA Ht Hmi)) -
      RtoC 2 * (- qp * aT Ht Hpl * Cconj (aT H H0) + Cconj (- qp)%C * aT H Hpl * Cconj (aT Ht H0) + (- qp * aT Ht H0 * Cconj (aT H
      Hmi) + Cconj (- qp)%C * aT H H0 * Cconj (aT Ht Hmi)) + RtoC 2 * (- qp * aTt Ht Hpl * Cconj (aTt H H0) + Cconj (- qp)%C * aTt
      H Hpl * Cconj (aTt Ht H0) + (- qp * aTt Ht H0 * Cconj (aTt H Hmi) + Cconj (- qp)%C * aTt H H0 * Cconj (aTt Ht Hmi))))))%C;
    (* 155 *)
    G222 := (RtoC (- 8 / 3 * laGa / q2)%R * (- qp * aV Ht Hpl * Cconj (aV H Hmi) + Cconj (- qp)%C * aV H Hpl * Cconj (aV Ht Hmi) + (- qp
      * aA Ht Hpl * Cconj (aA H Hmi) + Cconj (- qp)%C * aA H Hpl * Cconj (aA Ht Hmi)) - RtoC 2 * (- qp * aT Ht Hpl * Cconj (aT H
      Hmi) + Cconj (- qp)%C * aT H Hpl * Cconj (aT Ht Hmi) + RtoC 2 * (- qp * aTt Ht Hpl * Cconj (aTt H Hmi) + Cconj (- qp)%C *
      aTt H Hpl * Cconj (aTt Ht Hmi)))))%C |}.

(** the keys of the dictionary of angular coefficients *)
Inductive jkey := J1s | J1c | J2s | J2c | J6s | J6c | J3 | J4 | J5 | J7 | J8 | J9.
Definition angcoeffs := jkey -> R.
(** 159-173 [G_to_g] *)
Definition G_to_g (G : gbasis) : angcoeffs := fun k =>
  match k with
  | J1s => 1 / 32 * (8 * G000 G + 2 * G020 G - 4 * G200 G - G220 G)
  | J1c => 1 / 16 * (4 * G000 G + G020 G + 4 * G200 G + G220 G)
  | J2s => 3 / 32 * (2 * G020 G - G220 G)
  | J2c => 3 / 16 * (G020 G + G220 G)
  | J6s => 1 / 8 * (2 * G010 G - G210 G)
  | J6c => 1 / 4 * (G010 G + G210 G)
  | J3 => 3 / 32 * fst (G222 G)
  | J4 => 3 / 32 * fst (G221 G)
  | J5 => sqrt 3 / 16 * fst (G211 G)
  | J7 => sqrt 3 / 16 * snd (G211 G)
  | J8 => 3 / 32 * snd (G221 G)
  | J9 => 3 / 32 * snd (G222 G)
  end.
(** 178, 185 [signflip]; also bvll/observables.py 57, 70 *)
Definition signflip (k : jkey) : bool := match k with J4 | J6s | J6c | J7 | J9 => true | _ => false end.
Definition J_of_g (g : angcoeffs) : angcoeffs := fun k => if signflip k then - 8 * 4 / 3 * g k else 8 * 4 / 3 * g k.
(** 175-180 [angularcoeffs_general_v], 182-187 [angularcoeffs_h_v] *)
Definition angularcoeffs_general_v (H : amps) (q2 mB mV ml1 ml2 : R) : angcoeffs :=
  J_of_g (G_to_g (angularcoeffs_general_Gbasis_v H q2 mB mV ml1 ml2)).
Definition angularcoeffs_h_v (phi : R) (H Ht : amps) (q2 mB mV ml1 ml2 : R) : angcoeffs :=
  J_of_g (G_to_g (angularcoeffs_h_Gbasis_v phi H Ht q2 mB mV ml1 ml2)).

(** ** B -> P l l *)
Record pamps := PAmps { pV : C; pA : C; pS : C; pP : C; pT : C; pTt : C }.
(** 189-201 [helicity_amps_p] *)
Definition helicity_amps_p (q2 mB mP mqh mql ml1 ml2 : R) (ff : ffkey -> R) (wc : wckey -> C) (prefactor : C) : pamps :=
  let laB := lambda_K (mB ^ 2) (mP ^ 2) q2 in {|
    pV := (prefactor * (RtoC (sqrt laB / (2 * sqrt q2))%R * (RtoC (2 * mqh / (mB + mP))%R * (wc W7 + wc W7p) * RtoC (ff Ftens)%R + (wc
      Wv + wc Wvp) * RtoC (ff Fplus)%R)) (* 192-193 *))%C;
    pA := (prefactor * (RtoC (sqrt laB / (2 * sqrt q2))%R * (wc Wa + wc Wap) * RtoC (ff Fplus)%R) (* 194 *))%C;
    pS := (prefactor * (RtoC ((mB ^ 2 - mP ^ 2) / 2 * ff Fzero)%R * ((wc Ws + wc Wsp) / RtoC (mqh - mql)%R + RtoC ((ml1 - ml2) / q2)%R
      * (wc Wv + wc Wvp))) (* 195-196 *))%C;
    pP := (prefactor * (RtoC ((mB ^ 2 - mP ^ 2) / 2 * ff Fzero)%R * ((wc Wp + wc Wpp) / RtoC (mqh - mql)%R + RtoC ((ml1 + ml2) / q2)%R
      * (wc Wa + wc Wap))) (* 197-198 *))%C;
    pT := (prefactor * (- Ci * RtoC (sqrt laB)%R / RtoC (2 * (mB + mP))%R * (wc Wt - wc Wtp) * RtoC (ff Ftens)%R) (* 199 *))%C;
    pTt := (prefactor * (- Ci * RtoC (sqrt laB)%R / RtoC (2 * (mB + mP))%R * (wc Wt + wc Wtp) * RtoC (ff Ftens)%R) (* 200 *))%C |}.
Record pbasis := PBasis { Gp0 : R; Gp1 : R; Gp2 : R }.
(** 203-225 [angularcoeffs_general_Gbasis_p] *)
Definition angularcoeffs_general_Gbasis_p (h : pamps) (q2 mB mP ml1 ml2 : R) : pbasis :=
  let laB := lambda_K (mB ^ 2) (mP ^ 2) q2 in
  let laGa := lambda_K q2 (ml1 ^ 2) (ml2 ^ 2) in
  let E1 := sqrt (ml1 ^ 2 + laGa / (4 * q2)) in
  let E2 := sqrt (ml2 ^ 2 + laGa / (4 * q2)) in
  let G := {|
    (* 209-217 *)
    Gp0 := (4 * (E1 * E2 + ml1 * ml2) + laGa / (3 * q2)) * Cmod (pV h)%C ^ 2 + (4 * (E1 * E2 - ml1 * ml2) + laGa / (3 * q2)) * Cmod (pA
      h)%C ^ 2 + (4 * (E1 * E2 - ml1 * ml2) + laGa / q2) * Cmod (pS h)%C ^ 2 + (4 * (E1 * E2 + ml1 * ml2) + laGa / q2) * Cmod (pP
      h)%C ^ 2 + 16 * (E1 * E2 + ml1 * ml2 - laGa / (12 * q2)) * Cmod (pTt h)%C ^ 2 + 8 * (E1 * E2 - ml1 * ml2 - laGa / (12 * q2))
      * Cmod (pT h)%C ^ 2 + 16 * (ml1 * E2 + ml2 * E1) * snd (pV h * Cconj (pTt h)%C)%C + 8 * sqrt 2 * (ml1 * E2 - ml2 * E1) * snd
      (pA h * Cconj (pT h)%C)%C;
    (* 218-221 *)
    Gp1 := - 4 * sqrt laGa * (fst (RtoC ((ml1 + ml2) / sqrt q2)%R * pV h * Cconj (pS h)%C + RtoC ((ml1 - ml2) / sqrt q2)%R * pA h *
      Cconj (pP h)%C)%C - snd (RtoC 2 * pTt h * Cconj (pS h)%C + RtoC (sqrt 2)%R * pT h * Cconj (pP h)%C)%C);
    (* 222-223 *)
    Gp2 := - 4 * laGa / (3 * q2) * (Cmod (pV h)%C ^ 2 + Cmod (pA h)%C ^ 2 - 2 * Cmod (pT h)%C ^ 2 - 4 * Cmod (pTt h)%C ^ 2) |} in
  let prefactor := phase_space q2 mB laB laGa in
  {| Gp0 := prefactor * Gp0 G; Gp1 := prefactor * Gp1 G; Gp2 := prefactor * Gp2 G |}.
(** 227-233 [angularcoeffs_general_p] *)
Record pcoeffs := PCoeffs { Ja : R; Jb : R; Jc : R }.
Definition angularcoeffs_general_p (h : pamps) (q2 mB mP ml1 ml2 : R) : pcoeffs :=
  let G := angularcoeffs_general_Gbasis_p h q2 mB mP ml1 ml2 in
  {| Ja := Gp0 G - Gp2 G / 2; Jb := Gp1 G; Jc := 3 * Gp2 G / 2 |}.

(** ** bvll/observables.py: functions of the coefficients of a decay and of its conjugate *)
(** 15-26 *)
Definition dGdq2 (J : angcoeffs) : R := 3 / 4 * (2 * J J1s + J J1c) - 1 / 4 * (2 * J J2s + J J2c).
Definition dGdq2_ave (J J_bar : angcoeffs) : R := (dGdq2 J + dGdq2 J_bar) / 2.
Definition dGdq2_diff (J J_bar : angcoeffs) : R := (dGdq2 J - dGdq2 J_bar) / 2.
Definition SA_den (J J_bar : angcoeffs) : R := 2 * dGdq2_ave J J_bar.
(** 32-46 *)
Definition S_theory_num (J J_bar : angcoeffs) (i : jkey) : R := J i + J_bar i.
Definition S_theory (J J_bar : angcoeffs) (i : jkey) : R := S_theory_num J J_bar i / SA_den J J_bar.
Definition A_theory_num (J J_bar : angcoeffs) (i : jkey) : R := J i - J_bar i.
Definition A_theory (J J_bar : angcoeffs) (i : jkey) : R := A_theory_num J J_bar i / SA_den J J_bar.
(** 29-30 *)
Definition P_den (J J_bar : angcoeffs) : R := S_theory_num J J_bar J2s.
(** 48-72 *)
Definition S_experiment_num (J J_bar : angcoeffs) (i : jkey) : R :=
  if signflip i then - S_theory_num J J_bar i else S_theory_num J J_bar i.
Definition S_experiment (J J_bar : angcoeffs) (i : jkey) : R := S_experiment_num J J_bar i / SA_den J J_bar.
Definition A_experiment_num (J J_bar : angcoeffs) (i : jkey) : R :=
  if signflip i then - A_theory_num J J_bar i else A_theory_num J J_bar i.
Definition A_experiment (J J_bar : angcoeffs) (i : jkey) : R := A_experiment_num J J_bar i / SA_den J J_bar.
(** 74-90 *)
Definition AFB_experiment_num (J J_bar : angcoeffs) : R := 3 / 4 * S_experiment_num J J_bar J6s.
Definition AFB_experiment (J J_bar : angcoeffs) : R := AFB_experiment_num J J_bar / SA_den J J_bar.
Definition AFB_theory_num (J J_bar : angcoeffs) : R := 3 / 4 * S_theory_num J J_bar J6s.
Definition AFB_theory (J J_bar : angcoeffs) : R := AFB_theory_num J J_bar / SA_den J J_bar.
(** 92-108 *)
Definition FL_num (J J_bar : angcoeffs) : R := - S_theory_num J J_bar J2c.
Definition FL (J J_bar : angcoeffs) : R := FL_num J J_bar / SA_den J J_bar.
Definition FLhat_num (J J_bar : angcoeffs) : R := - S_theory_num J J_bar J1c.
Definition FLhat (J J_bar : angcoeffs) : R := FLhat_num J J_bar / SA_den J J_bar.
(** 284-293 [BVll_pprime.__call__], for an allowed q2 and the numerator [func_num] *)
Definition pprime (num : angcoeffs -> angcoeffs -> R) (J J_bar : angcoeffs) : R :=
  if Req_EM_T (num J J_bar) 0 then 0
  else num J J_bar / (2 * sqrt (- S_experiment_num J J_bar J2s * S_experiment_num J J_bar J2c)).
(** 260-267 [BVll_ratio.__call__], for an allowed q2 *)
Definition ratio (num den : angcoeffs -> angcoeffs -> R) (J J_bar : angcoeffs) : R :=
  if Req_EM_T (num J J_bar) 0 then 0 else num J J_bar / den J J_bar.
(** 452-462, the observables P1, P2, P3, P4', P5', P6' and P8' (differential) *)
Definition P1 (J J_bar : angcoeffs) : R := ratio (fun J J_bar => S_experiment_num J J_bar J3 / 2) P_den J J_bar.
Definition P2 (J J_bar : angcoeffs) : R := ratio (fun J J_bar => S_experiment_num J J_bar J6s / 8) P_den J J_bar.
Definition P3 (J J_bar : angcoeffs) : R := ratio (fun J J_bar => - S_experiment_num J J_bar J9 / 4) P_den J J_bar.
Definition P4p (J J_bar : angcoeffs) : R := pprime (fun J J_bar => S_experiment_num J J_bar J4) J J_bar.
Definition P5p (J J_bar : angcoeffs) : R := pprime (fun J J_bar => S_experiment_num J J_bar J5) J J_bar.
Definition P6p (J J_bar : angcoeffs) : R := pprime (fun J J_bar => S_experiment_num J J_bar J7) J J_bar.
Definition P8p (J J_bar : angcoeffs) : R := pprime (fun J J_bar => S_experiment_num J J_bar J8) J J_bar.

(** ** bpll.py 97-115 *)
Definition P_dGdq2 (J : pcoeffs) : R := 2 * (Ja J + Jc J / 3).
Definition P_AFB_num (J : pcoeffs) : R := Jb J.
Definition P_FH_num (J : pcoeffs) : R := 2 * (Ja J + Jc J).
Definition P_dGdq2_cpaverage (J J_bar : pcoeffs) : R := (P_dGdq2 J + P_dGdq2 J_bar) / 2.
Definition P_dGdq2_cpdiff (J J_bar : pcoeffs) : R := (P_dGdq2 J - P_dGdq2 J_bar) / 2.
Definition P_AFB_cpaverage_num (J J_bar : pcoeffs) : R := (P_AFB_num J + P_AFB_num J_bar) / 2.
Definition P_FH_cpaverage_num (J J_bar : pcoeffs) : R := (P_FH_num J + P_FH_num J_bar) / 2.
(** the ratios of bpll.py 205-212 [bpll_obs_ratio_func] for an allowed q2 *)
Definition P_ratio (num den : pcoeffs -> pcoeffs -> R) (J J_bar : pcoeffs) : R :=
  if Req_EM_T (num J J_bar) 0 then 0 else num J J_bar / den J J_bar.

(** ** wilsoncoefficients.py: effective Wilson coefficients of operators with a neutrino *)
(** 206-231 [get_wceff_fccc]: the coefficients CVL, CVR, CSR, CSL and CT of the sector, and the contribution c_sm of the
    Standard Model (zero if the flavours differ, 213-216) *)
Definition get_wceff_fccc (c_sm CVL CVR CSR CSL CT : C) : wckey -> C := fun k =>
  match k with
  | W7 => RtoC 0 | W7p => RtoC 0
  | Wv => ((c_sm + CVL) / RtoC 2)%C
  | Wvp => (CVR / RtoC 2)%C
  | Wa => (- (c_sm + CVL) / RtoC 2)%C
  | Wap => (- CVR / RtoC 2)%C
  | Ws => (CSR / RtoC 2)%C
  | Wsp => (CSL / RtoC 2)%C
  | Wp => (- CSR / RtoC 2)%C
  | Wpp => (- CSL / RtoC 2)%C
  | Wt => RtoC 0
  | Wtp => CT
  end.
(** 175-196 [get_wceff_nunu]: the coefficients CL and CR of the sector *)
Definition get_wceff_nunu (CL CR : C) : wckey -> C := fun k =>
  match k with
  | Wv => CL | Wvp => CR | Wa => (- CL)%C | Wap => (- CR)%C
  | _ => RtoC 0
  end.
