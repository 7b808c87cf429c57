(** * Specification: what constraint strings look like and what they mean

    Concrete syntax as records of parts with a [show] function and a meaning given directly on
    the parts, without regular expressions. *)
From Coq Require Import QArith Qcanon.
From Verif Require Import Base Regex Parsing_Model.
Close Scope Q_scope. Close Scope Qc_scope.

(** [s] is the text [t], where any minus sign may be typed as U+2212 *)
Definition typed (t s : str) : Prop := Forall2 (fun c d => d = c \/ (c = 45%N /\ d = 8722%N)) t s.

Definition digits (s : str) : Prop := Forall (fun c => is_digit c = true) s.
Definition spaces (s : str) : Prop := Forall (fun c => is_space c = true) s.

(** Value of a digit string: first digit times ten to the number of digits after it, plus the
    value of the rest. *)
Fixpoint digits_value (s : str) : Z :=
  match s with
  | [] => 0
  | d :: s' => (Z.of_N d - 48) * 10 ^ Z.of_nat (length s') + digits_value s'
  end%Z.

(** Unsigned decimal numbers such as 12, 12. and 12.50 *)
Record number := mkNum { ip : str; frac : option str }.
Definition frac_digits (n : number) : str := match frac n with Some f => f | None => [] end.
Definition wf_number (n : number) : Prop := ip n <> [] /\ digits (ip n) /\ digits (frac_digits n).
Definition show_number (n : number) : str :=
  ip n ++ match frac n with Some f => 46%N :: f | None => [] end.
Definition number_value (n : number) : Qc :=
  Qcdiv (Z2Qc (digits_value (ip n ++ frac_digits n))) (Z2Qc (10 ^ Z.of_nat (length (frac_digits n)))).

(** Signs: [Some true] is "-", [Some false] is "+". *)
Definition show_sign (s : option bool) : str :=
  match s with None => [] | Some true => [45%N] | Some false => [43%N] end.
Definition signZ (s : option bool) (z : Z) : Z := match s with Some true => (- z)%Z | _ => z end.
Definition signQ (s : option bool) (q : Qc) : Qc := match s with Some true => Qcopp q | _ => q end.
Definition neg (b : bool) : option bool := if b then Some true else None.

(** Exponents such as e-3 attached to a number *)
Record expo_part := mkExpo { e_char : N; e_sign : option bool; e_digits : str }.
Definition wf_expo (e : expo_part) : Prop := In (e_char e) [101; 69]%N /\ e_digits e <> [] /\ digits (e_digits e).
Definition show_expo (e : expo_part) : str := e_char e :: show_sign (e_sign e) ++ e_digits e.
Definition expo_value (e : expo_part) : Z := signZ (e_sign e) (digits_value (e_digits e)).
Definition opt_show {A} (f : A -> str) (o : option A) : str := match o with Some a => f a | None => [] end.
Definition opt_wf {A} (f : A -> Prop) (o : option A) : Prop := match o with Some a => f a | None => True end.
Definition opt_expo_value (o : option expo_part) : Z := match o with Some e => expo_value e | None => 0%Z end.

(** An overall power of ten such as e-3, 1e-3, 10^(-3) *)
Record power := mkPow { p_prefix : str; p_open : bool; p_sign : option bool; p_digits : str; p_close : bool }.
Definition wf_power (p : power) : Prop :=
  In (p_prefix p) [lit "e"; lit "E"; lit "1e"; lit "1E"; lit "10^"] /\ p_digits p <> [] /\ digits (p_digits p).
Definition when (b : bool) (c : N) : str := if b then [c] else [].
Definition show_power (p : power) : str :=
  p_prefix p ++ when (p_open p) 40 ++ (show_sign (p_sign p) ++ p_digits p) ++ when (p_close p) 41.
Definition power_value (p : power) : Z := signZ (p_sign p) (digits_value (p_digits p)).
Definition opt_power_value (o : option power) : Z := match o with Some p => power_value p | None => 0%Z end.

(** The end of a string after the errors or the range: spaces, an optional "*", spaces, an
    optional power of ten, and (after a power of ten) an optional final newline. *)
Record tail := mkTail { t_sp1 : str; t_star : bool; t_sp2 : str; t_pow : option power; t_nl : bool }.
Definition wf_tail (t : tail) : Prop :=
  spaces (t_sp1 t) /\ spaces (t_sp2 t) /\ opt_wf wf_power (t_pow t) /\
  (t_star t = false -> t_sp2 t = []) /\ (t_pow t = None -> t_nl t = false).
Definition show_tail (t : tail) : str :=
  t_sp1 t ++ when (t_star t) 42 ++ t_sp2 t ++ opt_show show_power (t_pow t) ++ when (t_nl t) 10.

(** ** Bracket notation: "( 1.67 (3) (0.5) ) * 1e-3" *)
Record bracket := mkBr { b_sp1 : str; b_num : number; b_sp2 : str; b_sp3 : str }.
Definition wf_bracket (b : bracket) : Prop :=
  spaces (b_sp1 b) /\ wf_number (b_num b) /\ spaces (b_sp2 b) /\ spaces (b_sp3 b).
Definition show_bracket (b : bracket) : str :=
  [40%N] ++ b_sp1 b ++ show_number (b_num b) ++ b_sp2 b ++ [41%N] ++ b_sp3 b.

(** What both notations start with: spaces, "(", spaces, the central value, spaces. *)
Record start := mkStart { s_sp1 : str; s_open : bool; s_sp2 : str; s_neg : bool; s_num : number; s_sp3 : str }.
Definition wf_start (s : start) : Prop :=
  spaces (s_sp1 s) /\ spaces (s_sp2 s) /\ wf_number (s_num s) /\ spaces (s_sp3 s) /\
  (s_open s = false -> s_sp2 s = []).
Definition show_start (s : start) : str :=
  s_sp1 s ++ when (s_open s) 40 ++ s_sp2 s ++ (show_sign (neg (s_neg s)) ++ show_number (s_num s)) ++ s_sp3 s.
Definition start_value (s : start) : Qc := signQ (neg (s_neg s)) (number_value (s_num s)).

(** The conditions of the form "absent, then no spaces after it" only make the decomposition
    of a string unique; they exclude no strings. *)
Record bracket_string := mkBS { bs_start : start; bs_errors : list bracket; bs_close : bool; bs_tail : tail }.
Definition wf_bracket_string (b : bracket_string) : Prop :=
  wf_start (bs_start b) /\ bs_errors b <> [] /\ Forall wf_bracket (bs_errors b) /\ wf_tail (bs_tail b) /\
  (bs_close b = false -> t_sp1 (bs_tail b) = []).
Definition show_bracket_string (b : bracket_string) : str :=
  show_start (bs_start b) ++ concat (map show_bracket (bs_errors b)) ++ when (bs_close b) 41 ++ show_tail (bs_tail b).

(** Meaning: an error without decimal point counts in units of the last digit of the central
    value. *)
Definition bs_scale (b : bracket_string) : Qc := p10 (opt_power_value (t_pow (bs_tail b))).
Definition bs_central (b : bracket_string) : Qc := Qcmult (start_value (bs_start b)) (bs_scale b).
Definition bs_error (b : bracket_string) (e : bracket) : Qc :=
  match frac (b_num e) with
  | Some _ => Qcmult (number_value (b_num e)) (bs_scale b)
  | None => Qcmult (Qcdiv (number_value (b_num e))
                          (Z2Qc (10 ^ Z.of_nat (length (frac_digits (s_num (bs_start b)))))))
                   (bs_scale b)
  end.

(** ** Plus-minus notation: "(1.67 +- 0.3 + 0.1 - 0.2) * 1e-3" *)
Inductive pm_term :=
| Sym (mark : str) (sp1 : str) (e : number) (sp2 : str)
| Asy (sp1 : str) (right : number) (sp2 : str) (sp3 : str) (left : number) (sp4 : str).
Definition wf_term (t : pm_term) : Prop :=
  match t with
  | Sym mk a e b => In mk [[177%N]; lit "\pm"; lit "+-"] /\ spaces a /\ wf_number e /\ spaces b
  | Asy a r b c l d => spaces a /\ wf_number r /\ spaces b /\ spaces c /\ wf_number l /\ spaces d
  end.
Definition show_term (t : pm_term) : str :=
  match t with
  | Sym mk a e b => mk ++ a ++ show_number e ++ b
  | Asy a r b c l d => [43%N] ++ a ++ show_number r ++ b ++ [45%N] ++ c ++ show_number l ++ d
  end.
(** the text ends with a digit (or point) of a number *)
Definition ends_in_number (t : pm_term) : Prop :=
  match t with Sym _ _ _ b => b = [] | Asy _ _ _ _ _ d => d = [] end.

Record pm_string := mkPM { pm_start : start; pm_terms : list pm_term; pm_close : bool; pm_tail : tail }.
(** The last condition excludes strings like "1.0+-0.31e-3", where "1e-3" could be meant as
    the power of ten, but 1 is a digit of the error as well. *)
Definition wf_pm_string (p : pm_string) : Prop :=
  wf_start (pm_start p) /\ pm_terms p <> [] /\ Forall wf_term (pm_terms p) /\ wf_tail (pm_tail p) /\
  (pm_close p = false -> t_sp1 (pm_tail p) = []) /\
  (pm_close p = false -> t_star (pm_tail p) = false -> forall q, t_pow (pm_tail p) = Some q ->
     p_prefix q = lit "e" \/ p_prefix q = lit "E" \/ forall ts t, pm_terms p = ts ++ [t] -> ~ ends_in_number t).
Definition show_pm_string (p : pm_string) : str :=
  show_start (pm_start p) ++ concat (map show_term (pm_terms p)) ++ when (pm_close p) 41 ++ show_tail (pm_tail p).
Definition pm_scale (p : pm_string) : Qc := p10 (opt_power_value (t_pow (pm_tail p))).
Definition pm_central (p : pm_string) : Qc := Qcmult (start_value (pm_start p)) (pm_scale p).
(** symmetric and asymmetric errors, in the order written *)
Definition pm_symmetric (p : pm_string) : list Qc :=
  flat_map (fun t => match t with Sym _ _ e _ => [Qcmult (number_value e) (pm_scale p)] | Asy _ _ _ _ _ _ => [] end)
           (pm_terms p).
Definition pm_asymmetric (p : pm_string) : list (Qc * Qc) :=
  flat_map (fun t => match t with
                     | Asy _ r _ _ l _ => [(Qcmult (number_value r) (pm_scale p), Qcmult (number_value l) (pm_scale p))]
                     | Sym _ _ _ _ => []
                     end) (pm_terms p).

(** ** Plain numbers: " -1.5e3 " *)
Record plain := mkPlain { pl_sp1 : str; pl_sign : option bool; pl_num : number; pl_exp : option expo_part; pl_sp2 : str }.
Definition wf_plain (p : plain) : Prop :=
  spaces (pl_sp1 p) /\ wf_number (pl_num p) /\ opt_wf wf_expo (pl_exp p) /\ spaces (pl_sp2 p).
Definition show_plain (p : plain) : str :=
  pl_sp1 p ++ (show_sign (pl_sign p) ++ show_number (pl_num p)) ++ opt_show show_expo (pl_exp p) ++ pl_sp2 p.
Definition scaled (s : option bool) (n : number) (e : option expo_part) : Qc :=
  Qcmult (signQ s (number_value n)) (p10 (opt_expo_value e)).

(** ** Upper limits: "< 5.3e-8 @ 95 % C.L." *)
Record limit_string := mkLim { l_sp1 : str; l_sp2 : str; l_sign : option bool; l_num : number; l_exp : option expo_part;
  l_sp3 : str; l_sp4 : str; l_cl : number; l_sp5 : str; l_sp6 : str; l_dots1 : str; l_dots2 : str }.
Definition dotted (s : str) : Prop := Forall (fun c => c = 46%N \/ is_space c = true) s.
Definition wf_limit (l : limit_string) : Prop :=
  spaces (l_sp1 l) /\ spaces (l_sp2 l) /\ wf_number (l_num l) /\ opt_wf wf_expo (l_exp l) /\ spaces (l_sp3 l) /\
  spaces (l_sp4 l) /\ wf_number (l_cl l) /\ spaces (l_sp5 l) /\ spaces (l_sp6 l) /\ dotted (l_dots1 l) /\ dotted (l_dots2 l).
Definition show_limit (l : limit_string) : str :=
  l_sp1 l ++ [60%N] ++ l_sp2 l ++ (show_sign (l_sign l) ++ show_number (l_num l)) ++ opt_show show_expo (l_exp l) ++
  l_sp3 l ++ [64%N] ++ l_sp4 l ++ show_number (l_cl l) ++ l_sp5 l ++ [37%N] ++ l_sp6 l ++ [67%N] ++ l_dots1 l ++ [76%N] ++ l_dots2 l.

(** ** Lognormal: "1.2e-3 */ 1.5" *)
Record factor_string := mkFac { f_sp1 : str; f_sign : option bool; f_num : number; f_exp : option expo_part;
  f_sp2 : str; f_op : str; f_sp3 : str; f_factor : number; f_nl : bool }.
Definition wf_factor (f : factor_string) : Prop :=
  spaces (f_sp1 f) /\ wf_number (f_num f) /\ opt_wf wf_expo (f_exp f) /\ spaces (f_sp2 f) /\
  In (f_op f) [lit "*/"; lit "/*"] /\ spaces (f_sp3 f) /\ wf_number (f_factor f).
Definition show_factor (f : factor_string) : str :=
  f_sp1 f ++ (show_sign (f_sign f) ++ show_number (f_num f)) ++ opt_show show_expo (f_exp f) ++ f_sp2 f ++ f_op f ++
  f_sp3 f ++ show_number (f_factor f) ++ when (f_nl f) 10.

(** ** Ranges: "[-1e-2, 5 e-2] * 1e-3" *)
Record range_string := mkRange { r_sp1 : str; r_sp2 : str; r_neg1 : bool; r_num1 : number; r_sp3 : str; r_exp1 : option expo_part;
  r_sp4 : str; r_sp5 : str; r_neg2 : bool; r_num2 : number; r_sp6 : str; r_exp2 : option expo_part; r_sp7 : str; r_tail : tail }.
Definition wf_range (r : range_string) : Prop :=
  spaces (r_sp1 r) /\ spaces (r_sp2 r) /\ wf_number (r_num1 r) /\ spaces (r_sp3 r) /\ opt_wf wf_expo (r_exp1 r) /\
  spaces (r_sp4 r) /\ spaces (r_sp5 r) /\ wf_number (r_num2 r) /\ spaces (r_sp6 r) /\ opt_wf wf_expo (r_exp2 r) /\
  spaces (r_sp7 r) /\ wf_tail (r_tail r) /\ (r_exp1 r = None -> r_sp4 r = []) /\ (r_exp2 r = None -> r_sp7 r = []).
Definition show_range (r : range_string) : str :=
  r_sp1 r ++ [91%N] ++ r_sp2 r ++ (show_sign (neg (r_neg1 r)) ++ show_number (r_num1 r)) ++ r_sp3 r ++
  opt_show show_expo (r_exp1 r) ++ r_sp4 r ++ [44%N] ++ r_sp5 r ++ (show_sign (neg (r_neg2 r)) ++ show_number (r_num2 r)) ++
  r_sp6 r ++ opt_show show_expo (r_exp2 r) ++ r_sp7 r ++ [93%N] ++ show_tail (r_tail r).
Definition range_lo (r : range_string) : Qc := scaled (neg (r_neg1 r)) (r_num1 r) (r_exp1 r).
Definition range_hi (r : range_string) : Qc := scaled (neg (r_neg2 r)) (r_num2 r) (r_exp2 r).
Definition range_scale (r : range_string) : Qc := p10 (opt_power_value (t_pow (r_tail r))).
