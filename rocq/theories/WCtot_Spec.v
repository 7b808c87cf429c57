(** * Specification: total and effective Wilson coefficients, in terms of a table of Standard Model values and the names of the coefficients *)
From Coq Require Import Reals.
From Coquelicot Require Import Coquelicot.
From Coq Require Import String List.
Import ListNotations.
Local Open Scope R_scope.
Local Open Scope string_scope.

(** ** the table of the Standard Model: 15 rows with values at the scales 2, 2.5, 3, ..., 5.5 GeV *)
Definition table_ok (data : list (list R)) : Prop := List.length data = 15%nat /\ Forall (fun row => List.length row = 8%nat) data.
(** v is on the straight line between the values at the neighbouring scales *)
Definition on_line (row : list R) (s v : R) : Prop := exists i y0 y1, nth_error row i = Some y0 /\ nth_error row (S i) = Some y1 /\
  2 + INR i / 2 <= s <= 2 + INR (S i) / 2 /\ v = y0 + (y1 - y0) * (2 * (s - (2 + INR i / 2))).

(** ** contributions of the Standard Model: t i is the number in row i; the rows of C7 and C8 are those of the effective coefficients;
    C10 with the dependence on the top mass; in b -> s C7' and C8' with a factor m_s/m_b *)
Definition C7_noneff (t : nat -> R) : R := t 6%nat + 1 / 3 * t 2%nat + 4 / 9 * t 3%nat + 20 / 3 * t 4%nat + 80 / 9 * t 5%nat.
Definition C8_noneff (t : nat -> R) : R := t 7%nat - t 2%nat + 1 / 6 * t 3%nat - 20 * t 4%nat + 10 / 3 * t 5%nat.
Definition SM_part (q l : string) (t : nat -> R) (m_t msmb : R) : list (string * R) :=
  [("C1_" ++ q, t 0%nat); ("C2_" ++ q, t 1%nat); ("C3_" ++ q, t 2%nat); ("C4_" ++ q, t 3%nat); ("C5_" ++ q, t 4%nat); ("C6_" ++ q, t 5%nat);
   ("C7_" ++ q, C7_noneff t); ("C8_" ++ q, C8_noneff t);
   ("C9_" ++ q ++ l, t 8%nat); ("C10_" ++ q ++ l, t 9%nat * Rpower (m_t / (1731 / 10)) (153 / 100));
   ("C3Q_" ++ q, t 10%nat); ("C4Q_" ++ q, t 11%nat); ("C5Q_" ++ q, t 12%nat); ("C6Q_" ++ q, t 13%nat); ("Cb_" ++ q, t 14%nat)]
  ++ (if String.eqb q "bs" then [("C7p_" ++ q, msmb * C7_noneff t); ("C8p_" ++ q, msmb * C8_noneff t)] else []).

(** ** combinations of coefficients: effective coefficients *)
Definition C7_comb (c7 c3 c4 c5 c6 : C) : C := (c7 - RtoC (1 / 3) * c3 - RtoC (4 / 9) * c4 - RtoC (20 / 3) * c5 - RtoC (80 / 9) * c6)%C.
Definition C8_comb (c8 c3 c4 c5 c6 : C) : C := (c8 + c3 - RtoC (1 / 6) * c4 + RtoC 20 * c5 - RtoC (10 / 3) * c6)%C.
Definition eff_names (q : string) : list string := ["C7eff_" ++ q; "C8eff_" ++ q; "C7effp_" ++ q; "C8effp_" ++ q].
Definition sectors : list (string * string) := [("bs", "ee"); ("bs", "mumu"); ("bs", "tautau"); ("bd", "ee"); ("bd", "mumu"); ("bd", "tautau"); ("sd", "ee"); ("sd", "mumu"); ("sd", "tautau")].
