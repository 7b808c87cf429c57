(** * Model of the names of distributions (flavio/statistics/probability.py 17-32, 40-45, 61-72,
    2058, 2063-2066)

    Strings are lists of code points (Regex).  [str.lower] is modelled for ASCII. *)
From Verif Require Import Base Regex Parsing_Model.
Set Implicit Arguments.

Definition uppers : list N := map N.of_nat (seq 65 26).
Definition lowers : list N := map N.of_nat (seq 97 26).
Definition digits_ : list N := map N.of_nat (seq 48 10).

(** [re.sub(r, r'\1_\2', s)] for a pattern that never matches the empty string *)
Fixpoint sub_fuel (n : nat) (r : re) (s : str) : str :=
  match n with
  | 0 => s
  | S n' =>
      match s with
      | [] => []
      | x :: s1 =>
          match re_match_rest r s with
          | Some (s', c) => if length s' <? length s then group 1 c ++ 95%N :: group 2 c ++ sub_fuel n' r s'
                            else x :: sub_fuel n' r s1
          | None => x :: sub_fuel n' r s1
          end
      end
  end.
Definition sub (r : re) (s : str) : str := sub_fuel (length s) r s.

(** probability.py 18: (.)([A-Z][a-z]+) *)
Definition pattern1 : re :=
  Cat (Grp 1 (Chr Any)) (Grp 2 (Cat (Chr (Set_ uppers)) (plus (Chr (Set_ lowers))))).
(** probability.py 19: ([a-z0-9])([A-Z]) *)
Definition pattern2 : re := Cat (Grp 1 (Chr (Set_ (lowers ++ digits_)))) (Grp 2 (Chr (Set_ uppers))).
(** probability.py 17-19 [_camel_to_underscore] *)
Definition camel_to_underscore (s : str) : str := map lower (sub pattern2 (sub pattern1 s)).

(** [s.replace(old, '')] for a non-empty [old]: [skip] characters of an occurrence are left *)
Fixpoint is_prefix (p s : str) : bool :=
  match p, s with
  | [], _ => true
  | x :: p, y :: s => eqb x y && is_prefix p s
  | _, [] => false
  end.
Fixpoint remove (old : str) (skip : nat) (s : str) : str :=
  match s with
  | [] => []
  | x :: s' => match skip with
               | S k => remove old k s'
               | 0 => if is_prefix old s then remove old (length old - 1) s' else x :: remove old 0 s'
               end
  end.

(** A class: identity, [__name__] and the direct subclasses in the order of definition. *)
Inductive class : Type := Class (id : nat) (name : str) (subclasses : list class).
Definition class_name (c : class) : str := match c with Class _ n _ => n end.
(** probability.py 61-72 [class_to_string] *)
Definition class_to_string (c : class) : str :=
  remove (lit "_distribution") 0 (camel_to_underscore (class_name c)).
(** probability.py 40-45 [get_subclasses] *)
Fixpoint get_subclasses (c : class) : list class :=
  match c with Class _ _ l => flat_map (fun s => get_subclasses s ++ [s]) l end.

(** probability.py 2065-2066 [class_from_string]: a dictionary; a later class replaces an earlier
    one with the same name; and its use in [dict2dist], 2058 *)
Definition class_from_string (base : class) : od str class :=
  fold_left (fun d c => od_set (class_to_string c) c d) (get_subclasses base) [].
Definition lookup_class (base : class) (s : str) : result class :=
  match od_get s (class_from_string base) with Some c => Ok c | None => Err KeyError end.

(** What a name can stand for: a class or any other object. *)
Inductive obj : Type := OClass (c : class) | OOther.
(** probability.py 21-32 [string_to_class].  [eval s] is what Python's eval returns or raises for the
    text [s] in this function. *)
Definition string_to_class (eval : str -> result obj) (base : class) (s : str) : result obj :=
  match eval s with
  | Ok o => Ok o
  | Err NameError =>
    match List.find (fun c => eqb (class_to_string c) s) (get_subclasses base) with
    | Some c => Ok (OClass c)
    | None => Err NameError
    end
  | Err e => Err e
  end.

(** The classes of probability.py (line numbers of the class statements) *)
Definition leaf (line : nat) (name : string) : class := Class line (lit name) [].
Definition distributions : class :=
  Class 34 (lit "ProbabilityDistribution")
    [leaf 136 "UniformDistribution"; leaf 182 "DiscreteUniformDistribution"; leaf 231 "DeltaDistribution";
     leaf 270 "NormalDistribution"; leaf 316 "LogNormalDistribution"; leaf 399 "AsymmetricNormalDistribution";
     Class 472 (lit "HalfNormalDistribution") [leaf 549 "GaussianUpperLimit"];
     leaf 579 "GammaDistribution";
     Class 641 (lit "GammaDistributionPositive") [Class 741 (lit "GammaCountingProcess") [leaf 808 "GammaUpperLimit"]];
     Class 860 (lit "NumericalDistribution")
       [Class 999 (lit "GeneralGammaDistributionPositive") [Class 1081 (lit "GeneralGammaCountingProcess") [leaf 1172 "GeneralGammaUpperLimit"]];
        Class 1258 (lit "KernelDensityEstimate") [leaf 1289 "GaussianKDE"]];
     leaf 1315 "MultivariateNormalDistribution"; leaf 1463 "MultivariateNumericalDistribution"].
(** the other names that eval finds in the function: probability.py 3-21, 1629-2065 (imports and
    functions), the argument [string]; the builtins are left out *)
Definition other_names : list str :=
  map lit ["np"; "scipy"; "interp1d"; "RegularGridInterpolator"; "math"; "normal_logpdf"; "normal_pdf"; "confidence_level";
           "warnings"; "inspect"; "OrderedDict"; "yaml"; "re"; "_camel_to_underscore"; "string_to_class"; "string";
           "convolve_distributions"; "combine_distributions"; "weighted_average"; "dict2dist"; "class_from_string"]%string.
Definition scope : od str obj :=
  map (fun c => (class_name c, OClass c)) (distributions :: get_subclasses distributions) ++
  map (fun n => (n, OOther)) other_names.
(** eval of an identifier; anything else is not modelled here (some exception, e.g. SyntaxError) *)
Definition eval_identifier (s : str) : result obj :=
  match od_get s scope with Some o => Ok o | None => Err NameError end.
