(** * Model of flavio/physics/betadecays/{common,ft}.py and flavio/physics/elements.py: nuclear and neutron beta decays

    Floats are real numbers, complex numbers pairs of them; division by 0 and square roots of negative numbers (exceptions in Python) are excluded by the
    hypotheses of the theorems. *)
From Coq Require Import Reals.
From Coquelicot Require Import Complex.
From Coq Require Import String List Ascii.
From Verif Require Import Base Basics_Model WCtot_Model.
Import ListNotations.
Local Open Scope R_scope.

(** ** common.py 10-39 [wc_eff]: the effective couplings V, A, S, P, T. The coefficients are those of get_wceff_fccc_std (sector du e nu), the charges those of
    proton_charges; for nu = 'e' the Standard Model contribution to VL is CVLSM *)
Record couplings := Cpl { kV : C; kA : C; kS : C; kP : C; kT : C }.
Record charges5 := Ch { gV : R; gA : R; gS : R; gP : R; gT : R }.
Definition wc_eff (g : charges5) (CVLSM DeltaRV : R) (CVL CVR CSR CSL CT : C) : couplings :=
  let '(VL, VR, SR, SL, T) := get_wceff_fccc_std (RtoC CVLSM) CVL CVR CSR CSL CT in
  let DeltaRA := DeltaRV in
  let rV := sqrt (1 + DeltaRV) / CVLSM in
  let rA := sqrt (1 + DeltaRA) / CVLSM in
  {| kV := RtoC (gV g) * (VL * RtoC rV + VR);
     kA := - RtoC (gA g) * (VL * RtoC rA - VR);
     kS := RtoC (gS g) * (SL + SR);
     kP := RtoC (gP g) * (SL - SR);
     kT := RtoC (4 * gT g) * T |}%C.

(** ** ft.py *)
Section Corr.
  Variable k : couplings.
  Variables MF MGT : R.
  (** 15-23 *)
  Definition xi : R := 2 * (Rabs MF ^ 2 * (Cmod (kV k) ^ 2 + Cmod (kS k) ^ 2) + Rabs MGT ^ 2 * (Cmod (kA k) ^ 2 + Cmod (kT k) ^ 2)).
  (** 26-34 *)
  Definition a_xi : R := 2 * (Rabs MF ^ 2 * (Cmod (kV k) ^ 2 - Cmod (kS k) ^ 2) - 1 / 3 * Rabs MGT ^ 2 * (Cmod (kA k) ^ 2 - Cmod (kT k) ^ 2)).
  (** 44-53; s is 1 or -1 *)
  Definition b_xi (alpha Z s : R) : R :=
    let gamma := sqrt (1 - alpha ^ 2 * Z ^ 2) in
    s * 2 * gamma * 2 * (Rabs MF ^ 2 * Re (kV k * Cconj (kS k))%C + Rabs MGT ^ 2 * Re (kA k * Cconj (kT k))%C).
  (** 55-60 *)
  Definition dl (Jp J : R) : R := if Req_EM_T Jp J then 1 else 0.
  (** 62-71 *)
  Definition la (Jp J : R) : result R :=
    if Req_EM_T Jp (J - 1) then Ok 1 else if Req_EM_T Jp J then Ok (1 / (J + 1)) else if Req_EM_T Jp (J + 1) then Ok (- J / (J + 1)) else Err ValueError.
  (** 74-84 *)
  Definition A_xi (J Jf s : R) : result R := bind (la Jf J) (fun l => Ok (
    2 * (s * Rabs MGT ^ 2 * l * (Cmod (kT k) ^ 2 - Cmod (kA k) ^ 2)
         + dl Jf J * Rabs MF * Rabs MGT * sqrt (J / (J + 1)) * Re (RtoC 2 * kS k * Cconj (kT k) - RtoC 2 * kV k * Cconj (kA k))%C))).
  (** 87-100 *)
  Definition B_xi (J Jf me_E s : R) : result R := bind (la Jf J) (fun l => Ok (
    2 * (Rabs MGT ^ 2 * l * (Re (RtoC (me_E * 2) * kT k * Cconj (kA k))%C + s * (Cmod (kT k) ^ 2 + Cmod (kA k) ^ 2))
         - dl Jf J * Rabs MF * Rabs MGT * sqrt (J / (J + 1))
           * (Re (RtoC 2 * kS k * Cconj (kT k) + RtoC 2 * kV k * Cconj (kA k))%C
              + s * me_E * Re (RtoC 2 * kS k * Cconj (kA k) + RtoC 2 * kV k * Cconj (kT k))%C)))).
  (** 103-111 *)
  Definition D_xi (J Jf : R) : R :=
    2 * (dl Jf J * Rabs MF * Rabs MGT * sqrt (J / (J + 1)) * Im (RtoC 2 * kS k * Cconj (kT k) - RtoC 2 * kV k * Cconj (kA k))%C).
  (** 114-123 *)
  Definition R_xi (J Jf s : R) : result R := bind (la Jf J) (fun l => Ok (
    2 * (s * Rabs MGT ^ 2 * l * Im (RtoC 2 * kT k * Cconj (kA k))%C
         + dl Jf J * Rabs MF * Rabs MGT * sqrt (J / (J + 1)) * Im (RtoC 2 * kS k * Cconj (kA k) - RtoC 2 * kV k * Cconj (kT k))%C))).
  (** 37-41, 126-164 *)
  Definition ca : R := a_xi / xi.
  Definition cb (alpha Z s : R) : R := b_xi alpha Z s / xi.
  Definition cA (J Jf s : R) : result R := bind (A_xi J Jf s) (fun x => Ok (x / xi)).
  Definition cB (J Jf me_E s : R) : result R := bind (B_xi J Jf me_E s) (fun x => Ok (x / xi)).
  Definition cD (J Jf : R) : R := D_xi J Jf / xi.
  Definition cR (J Jf s : R) : result R := bind (R_xi J Jf s) (fun x => Ok (x / xi)).
End Corr.
(** 167-169 *)
Definition Kbeta (me : R) : R := 2 * PI ^ 3 * ln 2 / me ^ 5.
(** 173-209 nuclei_superallowed and Q_EC: name, (Z, <me/E>, Q_EC) *)
Definition nuclei_superallowed : list (string * (nat * R * R)) :=
  [("10C"%string, (6%nat, 619 / 1000, 953997 / 500 / 1000));
   ("14O"%string, (8%nat, 219 / 500, 2831543 / 1000 / 1000));
   ("22Mg"%string, (12%nat, 31 / 100, 412449 / 100 / 1000));
   ("26mAl"%string, (13%nat, 3 / 10, 105818 / 25 / 1000));
   ("34Cl"%string, (17%nat, 117 / 500, 2745831 / 500 / 1000));
   ("34Ar"%string, (18%nat, 53 / 250, 606183 / 100 / 1000));
   ("38mK"%string, (19%nat, 213 / 1000, 151106 / 25 / 1000));
   ("38Ca"%string, (20%nat, 39 / 200, 165303 / 25 / 1000));
   ("42Sc"%string, (21%nat, 201 / 1000, 321317 / 50 / 1000));
   ("46V"%string, (23%nat, 183 / 1000, 141049 / 20 / 1000));
   ("50Mn"%string, (25%nat, 169 / 1000, 7634453 / 1000 / 1000));
   ("54Co"%string, (27%nat, 157 / 1000, 412219 / 50 / 1000));
   ("62Ga"%string, (31%nat, 141 / 1000, 918107 / 100 / 1000));
   ("74Rb"%string, (37%nat, 1 / 8, 52084 / 5 / 1000))].
(** parameters: electron mass, alpha_e, G_F from GFeff, V_ud, nuisance parameters 'delta_deltaRp_Z2', 'delta_deltaNS,A', 'delta_deltaNS,E_QEC', 'f_n', 'deltaRp_n' *)
Record bpar := Bpar { b_me : R; b_alpha : R; b_GF : R; b_Vud : C; b_dRp : R; b_dNSA : R; b_dNSE : R; b_fn : R; b_Rp : R }.
Definition assoc {A} (x : string) (l : list (string * A)) : result A :=
  match find (fun p => String.eqb x (fst p)) l with Some p => Ok (snd p) | None => Err KeyError end.
(** 212-229 [Ft_superallowed] *)
Definition Ft_superallowed (p : bpar) (k : couplings) (A : string) : result R := bind (assoc A nuclei_superallowed) (fun '(Z, me_E, Q) =>
  let MF := sqrt 2 in let MGT := 0 in
  let Xi := xi k MF MGT in
  let B := cb k MF MGT (b_alpha p) (INR Z) (-1) in
  let pre := (RtoC (b_GF p / sqrt 2) * b_Vud p)%C in
  let ddRp := b_dRp p * INR Z ^ 2 in
  Ok ((1 + ddRp + b_dNSA p + b_dNSE p * Q) * Kbeta (b_me p) / Xi * 1 / (1 + B * me_E) / Cmod pre ^ 2)).
(** 232-266: neutron; the values of the constructor are MF = 1, MGT = sqrt 3, s = 1, Z = 0, J = Jf = 1/2 *)
Section Neutron.
  Variable p : bpar.
  Variable k : couplings.
  Variable me_E : R.
  Definition n_xi := xi k 1 (sqrt 3).
  Definition n_a := ca k 1 (sqrt 3).
  Definition n_b := cb k 1 (sqrt 3) (b_alpha p) 0 1.
  Definition n_A := cA k 1 (sqrt 3) (1 / 2) (1 / 2) 1.
  Definition n_B := cB k 1 (sqrt 3) (1 / 2) (1 / 2) me_E 1.
  Definition n_D := cD k 1 (sqrt 3) (1 / 2) (1 / 2).
  Definition n_R := cR k 1 (sqrt 3) (1 / 2) (1 / 2) 1.
  (** 269-280 [Neutron_tau.__call__] *)
  Definition tau_n : R :=
    let pre := (RtoC (b_GF p / sqrt 2) * b_Vud p)%C in
    let ft := Kbeta (b_me p) / n_xi * 1 / (1 + n_b * me_E) / Cmod pre ^ 2 in
    ft / ln 2 / b_fn p / (1 + b_Rp p).
  (** 283-310 [Neutron_corr.__call__]; for other names it returns None (not an observable) *)
  Definition Neutron_corr (coeff : string) : option (result R) :=
    match coeff with
    | "a"%string => Some (Ok n_a)
    | "atilde"%string => Some (Ok (n_a / (1 + n_b * me_E)))
    | "b"%string => Some (Ok n_b)
    | "A"%string => Some n_A
    | "Atilde"%string => Some (bind n_A (fun x => Ok (x / (1 + n_b * me_E))))
    | "B"%string => Some n_B
    | "Btilde"%string => Some (bind n_B (fun x => Ok (x / (1 + n_b * me_E))))
    | "lambdaAB"%string => Some (bind n_A (fun A => bind n_B (fun B => Ok ((A - B) / (A + B)))))
    | "D"%string => Some (Ok n_D)
    | "R"%string => Some n_R
    | _ => None
    end.
End Neutron.

(** ** elements.py 3-134 *)
Definition elements_table : list (nat * string) :=
  [(0%nat, "n"%string); (1%nat, "H"%string); (2%nat, "He"%string); (3%nat, "Li"%string); (4%nat, "Be"%string); (5%nat, "B"%string); (6%nat, "C"%string); (7%nat, "N"%string); (8%nat, "O"%string); (9%nat, "F"%string); (10%nat, "Ne"%string); (11%nat, "Na"%string); (12%nat, "Mg"%string); (13%nat, "Al"%string); (14%nat, "Si"%string); (15%nat, "P"%string); (16%nat, "S"%string); (17%nat, "Cl"%string); (18%nat, "Ar"%string); (19%nat, "K"%string); (20%nat, "Ca"%string); (21%nat, "Sc"%string); (22%nat, "Ti"%string); (23%nat, "V"%string); (24%nat, "Cr"%string); (25%nat, "Mn"%string); (26%nat, "Fe"%string); (27%nat, "Co"%string); (28%nat, "Ni"%string); (29%nat, "Cu"%string); (30%nat, "Zn"%string); (31%nat, "Ga"%string); (32%nat, "Ge"%string); (33%nat, "As"%string); (34%nat, "Se"%string); (35%nat, "Br"%string); (36%nat, "Kr"%string); (37%nat, "Rb"%string); (38%nat, "Sr"%string); (39%nat, "Y"%string); (40%nat, "Zr"%string); (41%nat, "Nb"%string); (42%nat, "Mo"%string); (43%nat, "Tc"%string); (44%nat, "Ru"%string); (45%nat, "Rh"%string); (46%nat, "Pd"%string); (47%nat, "Ag"%string); (48%nat, "Cd"%string); (49%nat, "In"%string); (50%nat, "Sn"%string); (51%nat, "Sb"%string); (52%nat, "Te"%string); (53%nat, "I"%string); (54%nat, "Xe"%string); (55%nat, "Cs"%string); (56%nat, "Ba"%string); (57%nat, "La"%string); (58%nat, "Ce"%string); (59%nat, "Pr"%string); (60%nat, "Nd"%string); (61%nat, "Pm"%string); (62%nat, "Sm"%string); (63%nat, "Eu"%string); (64%nat, "Gd"%string); (65%nat, "Tb"%string); (66%nat, "Dy"%string); (67%nat, "Ho"%string); (68%nat, "Er"%string); (69%nat, "Tm"%string); (70%nat, "Yb"%string); (71%nat, "Lu"%string); (72%nat, "Hf"%string); (73%nat, "Ta"%string); (74%nat, "W"%string); (75%nat, "Re"%string); (76%nat, "Os"%string); (77%nat, "Ir"%string); (78%nat, "Pt"%string); (79%nat, "Au"%string); (80%nat, "Hg"%string); (81%nat, "Tl"%string); (82%nat, "Pb"%string); (83%nat, "Bi"%string); (84%nat, "Po"%string); (85%nat, "At"%string); (86%nat, "Rn"%string); (87%nat, "Fr"%string); (88%nat, "Ra"%string); (89%nat, "Ac"%string); (90%nat, "Th"%string); (91%nat, "Pa"%string); (92%nat, "U"%string); (93%nat, "Np"%string); (94%nat, "Pu"%string); (95%nat, "Am"%string); (96%nat, "Cm"%string); (97%nat, "Bk"%string); (98%nat, "Cf"%string); (99%nat, "Es"%string); (100%nat, "Fm"%string); (101%nat, "Md"%string); (102%nat, "No"%string); (103%nat, "Lr"%string); (104%nat, "Rf"%string); (105%nat, "Db"%string); (106%nat, "Sg"%string); (107%nat, "Bh"%string); (108%nat, "Hs"%string); (109%nat, "Mt"%string); (110%nat, "Ds"%string); (111%nat, "Rg"%string); (112%nat, "Cn"%string); (113%nat, "Nh"%string); (114%nat, "Fl"%string); (115%nat, "Mc"%string); (116%nat, "Lv"%string); (117%nat, "Ts"%string); (118%nat, "Og"%string)].
Definition el_symbol (Z : nat) : result string := match find (fun p => Nat.eqb Z (fst p)) elements_table with Some p => Ok (snd p) | None => Err KeyError end.
Definition el_Z (s : string) : result nat := match find (fun p => String.eqb s (snd p)) elements_table with Some p => Ok (fst p) | None => Err KeyError end.
(** ft.py 320-327 [get_daughter], the name: the first group of digits and the rest from the first capital letter; no match is None.group(), AttributeError *)
Definition is_digit (c : ascii) : bool := (Nat.leb 48 (nat_of_ascii c) && Nat.leb (nat_of_ascii c) 57)%bool.
Definition is_upper (c : ascii) : bool := (Nat.leb 65 (nat_of_ascii c) && Nat.leb (nat_of_ascii c) 90)%bool.
Fixpoint digits_of (s : string) : string := match s with String c r => if is_digit c then String c (digits_of r) else EmptyString | EmptyString => EmptyString end.
Fixpoint first_digits (s : string) : result string :=
  match s with String c r => if is_digit c then Ok (digits_of s) else first_digits r | EmptyString => Err AttributeError end.
Fixpoint from_upper (s : string) : result string :=
  match s with String c r => if is_upper c then Ok s else from_upper r | EmptyString => Err AttributeError end.
Definition get_daughter (nuclide : string) : result string :=
  bind (first_digits nuclide) (fun A => bind (from_upper nuclide) (fun sym => bind (el_Z sym) (fun Z => bind (match Z with O => Err KeyError | S n => el_symbol n end) (fun d => Ok (String.append A d))))).
