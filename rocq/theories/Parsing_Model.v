(** * Model of flavio/_parse_errors.py (and of the use of its results in
    ParameterConstraints.set_constraint, classes.py:191-199)

    Simplifications: Python floats are idealised as exact rationals [Qc] (no rounding, no
    overflow; [inf] and [nan] literals are kept apart); [\d] and [str.isdigit] know only ASCII
    digits; error messages are dropped. *)
From Coq Require Import QArith Qcanon.
From Verif Require Import Base Regex.
Set Implicit Arguments.
Close Scope Q_scope. Close Scope Qc_scope.

(** ** The regular expressions, _parse_errors.py:5-13, 38-40 *)
Definition ch (x : N) : re := Chr (Set_ [x]).
Fixpoint word (s : str) : re := match s with [] => Eps | x :: s' => Cat (ch x) (word s') end.
Definition plus (r : re) : re := Cat r (Star r).
Definition opt (r : re) : re := Or r Eps.
Fixpoint cat (l : list re) : re := match l with [] => Eps | r :: l' => Cat r (cat l') end.
Definition sp : re := Star (Chr Space).               (* \s* *)
Definition digits1 : re := plus (Chr Digit).          (* \d+ *)
Definition unum : re :=                               (* \d+\.?\d* *)
  Cat digits1 (Cat (opt (ch 46)) (Star (Chr Digit))).
Definition eE : list N := [101; 69]%N.
Definition sign : list N := [45; 43]%N.               (* [-+] *)
Definition expo : re :=                               (* [eE][-+]?\d+ *)
  Cat (Chr (Set_ eE)) (Cat (opt (Chr (Set_ sign))) digits1).
(** the overall factor: (?:(?:e|E|1e|1E|10\^)\(?([+-]?\d+)\)?)? with group number [n] *)
Definition pow10 (n : nat) : re :=
  opt (cat [Or (ch 101) (Or (ch 69) (Or (word (lit "1e")) (Or (word (lit "1E")) (word (lit "10^")))));
            opt (ch 40); Grp n (Cat (opt (Chr (Set_ sign))) digits1); opt (ch 41)]).

(** _parse_errors.py:5 *)
Definition pattern_upperlimit : re :=
  cat [sp; ch 60; sp; Grp 1 (Cat (opt (Chr (Set_ sign))) unum); opt (Grp 2 expo); sp; ch 64; sp;
       Grp 3 unum; sp; ch 37; sp; ch 67; Star (Or (ch 46) (Chr Space)); ch 76; Star (Or (ch 46) (Chr Space)); End].
(** _parse_errors.py:7 *)
Definition bracket_item : re := cat [ch 40; sp; unum; sp; ch 41; sp].
Definition pattern_brackets : re :=
  cat [sp; opt (ch 40); sp; Grp 1 (Cat (opt (ch 45)) unum); sp; Grp 2 (plus bracket_item);
       opt (ch 41); sp; opt (ch 42); sp; pow10 3; End].
(** _parse_errors.py:9; the character class [+\-±\\pm] *)
Definition pm_class : list N := [43; 45; 177; 92; 112; 109]%N.
Definition pm_item : re := cat [plus (Chr (Set_ pm_class)); sp; unum; sp].
Definition pattern_plusminus : re :=
  cat [sp; opt (ch 40); sp; Grp 1 (Cat (opt (ch 45)) unum); sp; Grp 2 (plus pm_item);
       opt (ch 41); sp; opt (ch 42); sp; pow10 3; End].
(** _parse_errors.py:11 *)
Definition pattern_timesby : re :=
  cat [sp; Grp 1 (Cat (opt (Chr (Set_ sign))) unum); opt (Grp 2 expo); sp;
       Or (word (lit "*/")) (word (lit "/*")); sp; Grp 3 unum; End].
(** _parse_errors.py:13 *)
Definition pattern_range : re :=
  cat [sp; ch 91; sp; Grp 1 (Cat (opt (ch 45)) unum); sp; opt (Grp 2 expo); sp; ch 44; sp;
       Grp 3 (Cat (opt (ch 45)) unum); sp; opt (Grp 4 expo); sp; ch 93; sp; opt (ch 42); sp; pow10 5; End].
(** _parse_errors.py:38-40 *)
Definition pattern_brackets_err : re := cat [ch 40; sp; Grp 1 unum; sp; ch 41; sp].
Definition pattern_symmetric_err : re :=
  Cat (Or (ch 177) (Or (word (lit "\pm")) (word (lit "+-")))) (Grp 1 (Cat sp unum)).
Definition pattern_asymmetric_err : re :=
  cat [ch 43; sp; Grp 1 unum; sp; ch 45; sp; Grp 2 unum].

(** ** float(string): the language reference's "floating point literal" syntax with
    optional sign and surrounding white space, underscores between digits, inf and nan *)
Inductive pyfloat := Fin (q : Qc) | PInf | NInf | NaN.

Fixpoint lstrip (s : str) : str :=
  match s with [] => [] | x :: s' => if is_space x then lstrip s' else s end.
Definition strip (s : str) : str := rev (lstrip (rev (lstrip s))).

(** digits with single underscores in between: the digits read, and the rest *)
Fixpoint scan_digits (s : str) : str * str :=
  match s with
  | x :: s' =>
      if is_digit x then
        match s' with
        | y :: ((z :: _) as s'') =>
            if eqb y 95%N && is_digit z then let (d, r) := scan_digits s'' in (x :: d, r)
            else let (d, r) := scan_digits s' in (x :: d, r)
        | _ => let (d, r) := scan_digits s' in (x :: d, r)
        end
      else ([], s)
  | [] => ([], [])
  end.
Definition digit_val (c : N) : Z := (Z.of_N c - 48)%Z.
(** value of a string of digits *)
Definition dec (s : str) : Z := fold_left (fun a c => (10 * a + digit_val c)%Z) s 0%Z.

Definition Z2Qc (z : Z) : Qc := Q2Qc (inject_Z z).
(** 10**e *)
Definition p10 (e : Z) : Qc :=
  if (0 <=? e)%Z then Z2Qc (10 ^ e) else Qcinv (Z2Qc (10 ^ (- e))).

Definition take_sign (s : str) : bool * str :=
  match s with
  | 45%N :: s' => (true, s')
  | 43%N :: s' => (false, s')
  | _ => (false, s)
  end.
Definition lower (c : N) : N := if (65 <=? c)%N && (c <=? 90)%N then (c + 32)%N else c.

(** the exponent part: [None] if malformed *)
Definition scan_exp (s : str) : option Z :=
  match s with
  | [] => Some 0%Z
  | x :: s' =>
      if memb x eE then
        let (neg, s1) := take_sign s' in
        match scan_digits s1 with
        | ((_ :: _) as d, []) => Some (if neg then (- dec d)%Z else dec d)
        | _ => None
        end
      else None
  end.
(** digits, optional point and digits, optional exponent; at least one digit *)
Definition scan_number (s : str) : option Qc :=
  let (ip, r) := scan_digits s in
  let (fp, r') := match r with 46%N :: r1 => scan_digits r1 | _ => ([], r) end in
  match ip ++ fp with
  | [] => None
  | d => match scan_exp r' with
         | Some e => Some (Qcmult (Z2Qc (dec d)) (p10 (e - Z.of_nat (length fp))))
         | None => None
         end
  end.
Definition py_float (s : str) : option pyfloat :=
  let (neg, b) := take_sign (strip s) in
  let lb := map lower b in
  if eqb lb (lit "inf") || eqb lb (lit "infinity") then Some (if neg then NInf else PInf)
  else if eqb lb (lit "nan") then Some NaN
  else match scan_number b with
       | Some q => Some (Fin (if neg then Qcopp q else q))
       | None => None
       end.
(** float(...) applied to what a group matched; such texts are finite numbers *)
Definition float_of (s : str) : result Qc :=
  match py_float s with Some (Fin q) => Ok q | _ => Err ValueError end.

(** ** Distributions that are produced, with the checks of their constructors
    (statistics/probability.py:150-151, 274-275, 341-344, 414-416, 559-562; a confidence
    level of 1 gives standard deviation 0, which lines 494-495 reject) *)
Inductive pdist :=
| Delta (x : pyfloat)
| Normal (cv sd : Qc)
| Asym (cv right left : Qc)
| LogNormal (cv factor : Qc)
| Uniform (cv half_range : Qc)
| UpperLimit (limit cl : Qc).

Definition Qcltb (a b : Qc) : bool := if Qclt_le_dec a b then true else false.
Definition Qcleb (a b : Qc) : bool := negb (Qcltb b a).
Definition c0 : Qc := Z2Qc 0.
Definition c1 : Qc := Z2Qc 1.

Definition mkNormal (cv sd : Qc) : result pdist :=
  if Qcleb sd c0 then Err ValueError else Ok (Normal cv sd).
Definition mkAsym (cv r l : Qc) : result pdist :=
  if Qcleb r c0 || Qcleb l c0 then Err ValueError else Ok (Asym cv r l).
Definition mkLogNormal (cv f : Qc) : result pdist :=
  if Qc_eq_bool cv c0 then Err ValueError else if Qcleb f c1 then Err ValueError else Ok (LogNormal cv f).
Definition mkUpperLimit (l cl : Qc) : result pdist :=
  if Qcltb c1 cl || Qcltb cl c0 then Err ValueError
  else if Qcleb l c0 then Err ValueError
  else if Qc_eq_bool cl c1 then Err ValueError
  else Ok (UpperLimit l cl).

(** ** errors_from_string, _parse_errors.py:16-63 *)
Record errors := mkErrors {
  central_value : Qc;
  symmetric_errors : list Qc;
  asymmetric_errors : list (Qc * Qc)
}.
Definition group (n : nat) (c : caps) : str := match od_get n c with Some t => t | None => [] end.

(** central_value.split('.'): the part after the first point, if there is one *)
Fixpoint until_dot (s : str) : str :=
  match s with [] => [] | x :: s' => if eqb x 46%N then [] else x :: until_dot s' end.
Fixpoint after_dot (s : str) : option str :=
  match s with [] => None | x :: s' => if eqb x 46%N then Some (until_dot s') else after_dot s' end.
Definition number_decimal (s : str) : nat :=
  match after_dot s with None => 0 | Some f => length f end.
Definition isdigit (s : str) : bool := forallb is_digit s && negb (eqb s []).

(** 10**float(group), 1 if the group did not take part *)
Definition overall (g : option str) : result Qc :=
  match g with
  | None => Ok c1
  | Some t => match py_float t with
              (* the groups used are [+-]?\d+: the value is an integer *)
              | Some (Fin q) => Ok (p10 (Qnum (this q)))
              | _ => Err ValueError
              end
  end.

Definition is_some {A} (o : option A) : bool := match o with Some _ => true | None => false end.

Definition errors_from_string (s : str) : result errors :=
  match (match re_match pattern_brackets s with
         | Some c => Some c
         | None => re_match pattern_plusminus s
         end) with
  | None => Err ValueError
  | Some c =>
      do f <- overall (od_get 3 c);
      let nd := number_decimal (group 1 c) in
      do v <- float_of (group 1 c);
      let cv := Qcmult v f in
      let es := group 2 c in
      if is_some (re_match pattern_brackets_err es) then
        do sy <- mapM (fun g => do e <- float_of (group 1 g);
                       Ok (if negb (isdigit (group 1 g)) then Qcmult e f
                           else Qcmult (Qcmult e (p10 (- Z.of_nat nd))) f))
                      (findall pattern_brackets_err es);
        Ok (mkErrors cv sy [])
      else if is_some (re_match pattern_symmetric_err es) || is_some (re_match pattern_asymmetric_err es) then
        do sy <- mapM (fun g => do e <- float_of (group 1 g); Ok (Qcmult e f)) (findall pattern_symmetric_err es);
        do asy <- mapM (fun g => do r <- float_of (group 1 g); do l <- float_of (group 2 g);
                        Ok (Qcmult r f, Qcmult l f)) (findall pattern_asymmetric_err es);
        Ok (mkErrors cv sy asy)
      else Ok (mkErrors cv [] [])
  end.

(** float(sg) or float(sg + ex), _parse_errors.py:70-73, 83-86, 95-102 *)
Definition float_expo (sg : str) (ex : option str) : result Qc :=
  match ex with None => float_of sg | Some e => float_of (sg ++ e) end.

(** _parse_errors.py:65-75 *)
Definition limit_from_string (s : str) : result (Qc * Qc) :=
  match re_match pattern_upperlimit s with
  | None => Err ValueError
  | Some c => do limit <- float_expo (group 1 c) (od_get 2 c);
              do cl <- float_of (group 3 c);
              Ok (limit, Qcdiv cl (Z2Qc 100))
  end.
(** _parse_errors.py:78-87 *)
Definition lognormal_from_string (s : str) : result (Qc * Qc) :=
  match re_match pattern_timesby s with
  | None => Err ValueError
  | Some c => do cv <- float_expo (group 1 c) (od_get 2 c);
              do fac <- float_of (group 3 c);
              Ok (cv, fac)
  end.
(** _parse_errors.py:90-113 *)
Definition range_from_string (s : str) : result (Qc * Qc) :=
  match re_match pattern_range s with
  | None => Err ValueError
  | Some c => do lo <- float_expo (group 1 c) (od_get 2 c);
              do hi <- float_expo (group 3 c) (od_get 4 c);
              if Qcltb hi lo then Err ValueError
              else do f <- overall (od_get 5 c);
                   let lo := Qcmult f lo in
                   let hi := Qcmult f hi in
                   Ok (Qcdiv (Qcplus hi lo) (Z2Qc 2), Qcdiv (Qcminus hi lo) (Z2Qc 2))
  end.

(** str.replace('−','-'): U+2212 to U+002D, _parse_errors.py:145 *)
Definition dash (s : str) : str := map (fun c => if eqb c 8722%N then 45%N else c) s.

(** What constraints_from_string returns: normally a list of distributions, but a dictionary
    on line 149. *)
Inductive pyret := PDs (l : list pdist) | ADict (central_value : pyfloat).

(** constraints_from_string, _parse_errors.py:135-172 *)
Definition constraints_from_string (s0 : str) : result pyret :=
  match py_float s0 with
  | Some v => Ok (PDs [Delta v])
  | None =>
      let s := dash s0 in
      match py_float s with
      | Some v => Ok (ADict v)
      | None =>
          if is_some (re_match pattern_upperlimit s) then
            do lc <- limit_from_string s; do d <- mkUpperLimit (fst lc) (snd lc); Ok (PDs [d])
          else if is_some (re_match pattern_range s) then
            do ch <- range_from_string s; Ok (PDs [Uniform (fst ch) (snd ch)])
          else if is_some (re_match pattern_timesby s) then
            do cf <- lognormal_from_string s; do d <- mkLogNormal (fst cf) (snd cf); Ok (PDs [d])
          else if is_some (re_match pattern_brackets s) || is_some (re_match pattern_plusminus s) then
            do e <- errors_from_string s;
            do sy <- mapM (mkNormal (central_value e)) (symmetric_errors e);
            do asy <- mapM (fun rl => mkAsym (central_value e) (fst rl) (snd rl)) (asymmetric_errors e);
            Ok (PDs (sy ++ asy))
          else Err ValueError
      end
  end.

(** The list of distributions that set_constraint (classes.py:191-199) hands to the
    convolution: an empty list fails at [dims\[0\]] (statistics/probability.py:1657-1659), the
    dictionary when [.central_value] of its key, a string, is looked up. *)
Definition set_constraint_string (s : str) : result (list pdist) :=
  do r <- constraints_from_string s;
  match r with
  | PDs [] => Err IndexError
  | PDs l => Ok l
  | ADict _ => Err AttributeError
  end.
