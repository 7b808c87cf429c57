(** * Model of flavio/physics/common.py, flavio/physics/ckm.py 58-114, flavio/physics/elements.py,
    flavio/math/optimize.py 6-65 and flavio/statistics/functions.py

    Floats are idealised as real numbers, complex numbers as pairs of them (Coquelicot's [C]). *)
From Coq Require Import Reals.
From Coquelicot Require Import Complex.
From Verif Require Import Base.
Set Implicit Arguments.
Local Open Scope R_scope.

(** ** common.py *)
(** 11 *)
Definition cp_odd : list string := ["gamma"; "delta"]%string.
(** 5-12 [conjugate_par] *)
Definition conjugate_par (par : od string R) : od string R :=
  map (fun kv => (fst kv, if memb (fst kv) cp_odd then - snd kv else snd kv)) par.
(** 14-18 [conjugate_wc] *)
Definition conjugate_wc (wc : od string C) : od string C := map (fun kv => (fst kv, Cconj (snd kv))) wc.
(** [Counter.update] of the standard library: adds the counts key by key *)
Definition counter_update (res d : od string R) : od string R :=
  fold_left (fun res kv => od_set (fst kv) (snd kv + match od_get (fst kv) res with Some x => x | None => 0 end) res) d res.
(** 20-37 [add_dict] *)
Definition add_dict (dicts : list (od string R)) : result (od string R) :=
  match dicts with
  | [] => Err IndexError
  | d :: dicts => Ok (fold_left counter_update dicts d)
  end.
(** 40-50 [lambda_K] *)
Definition lambda_K (a b c : R) : R :=
  let z := a ^ 2 + b ^ 2 + c ^ 2 - 2 * (a * b + b * c + a * c) in
  if Rlt_dec z 0 then 0 else z.

(** ** ckm.py.  [V k i] is the element in row [k], column [i] of the matrix that [get_ckm] returns. *)
Definition ckm : Type := nat -> nat -> C.
(** 82-84 [xi_kl_ij] *)
Definition xi_kl_ij (V : ckm) (k l i j : nat) : C := Cmult (V k i) (Cconj (V l j)).
(** 86-87 *)
Definition q_dict_u : od string nat := [("u", 0); ("c", 1); ("t", 2)]%string%nat.
Definition q_dict_d : od string nat := [("d", 0); ("s", 1); ("b", 2)]%string%nat.
Definition lookup {A} (k : string) (d : od string A) : result A := match od_get k d with Some x => Ok x | None => Err KeyError end.
(** [bc\[n\]] of a text *)
Definition letter (n : nat) (s : string) : result string :=
  match String.get n s with Some c => Ok (String c EmptyString) | None => Err IndexError end.
(** 89-114 [xi] *)
Definition xi (a bc : string) : result (ckm -> C) :=
  match od_get a q_dict_u with
  | Some kl =>
    do b <- letter 0 bc; do i <- lookup b q_dict_d;
    do c <- letter 1 bc; do j <- lookup c q_dict_d;
    Ok (fun V => xi_kl_ij V kl kl i j)
  | None =>
    do ij <- lookup a q_dict_d;
    do b <- letter 0 bc; do k <- lookup b q_dict_u;
    do c <- letter 1 bc; do l <- lookup c q_dict_u;
    Ok (fun V => xi_kl_ij V k l ij ij)
  end.
(** [cmath.phase]: the angle in (-pi, pi]; zero for zero.  (Signed zeros are not modelled.) *)
Definition phase (z : C) : R :=
  if Ceq_dec z 0 then 0 else if Rlt_dec (snd z) 0 then - acos (fst z / Cmod z) else acos (fst z / Cmod z).
(** 62-78; the division of numpy numbers by zero gives nan, it is excluded in the theorems *)
Definition get_ckmangle_beta (V : ckm) : R := phase (- V 1%nat 0%nat * Cconj (V 1%nat 2%nat) / V 2%nat 0%nat / Cconj (V 2%nat 2%nat))%C.
Definition get_ckmangle_alpha (V : ckm) : R := phase (- V 2%nat 0%nat * Cconj (V 2%nat 2%nat) / V 0%nat 0%nat / Cconj (V 0%nat 2%nat))%C.
Definition get_ckmangle_gamma (V : ckm) : R := phase (- V 0%nat 0%nat * Cconj (V 0%nat 2%nat) / V 1%nat 0%nat / Cconj (V 1%nat 2%nat))%C.

(** 44-51: the implementations read four parameters; the functions are those of the package ckmutil *)
Inductive ckm_implementation := Standard | Tree | Wolfenstein | BetaGamma.
Definition ckm_parameters (i : ckm_implementation) : list string :=
  match i with
  | Standard => ["t12"; "t13"; "t23"; "delta"]
  | Tree => ["Vus"; "Vub"; "Vcb"; "gamma"]
  | Wolfenstein => ["laC"; "A"; "rhobar"; "etabar"]
  | BetaGamma => ["Vus"; "Vcb"; "beta"; "gamma"]
  end%string.
Definition get_ckm (ckmutil : ckm_implementation -> list R -> ckm) (i : ckm_implementation) (par : od string R) : result ckm :=
  do vals <- mapM (fun p => lookup p par) (ckm_parameters i); Ok (ckmutil i vals).

(** ** elements.py *)
(** 3-122 [_table], keys 0 to 118 *)
Definition element_table : list string :=
  ["n"; "H"; "He"; "Li"; "Be"; "B"; "C"; "N"; "O"; "F"; "Ne"; "Na"; "Mg"; "Al"; "Si"; "P"; "S"; "Cl"; "Ar"; "K"; "Ca"; "Sc"; "Ti";
   "V"; "Cr"; "Mn"; "Fe"; "Co"; "Ni"; "Cu"; "Zn"; "Ga"; "Ge"; "As"; "Se"; "Br"; "Kr"; "Rb"; "Sr"; "Y"; "Zr"; "Nb"; "Mo"; "Tc"; "Ru";
   "Rh"; "Pd"; "Ag"; "Cd"; "In"; "Sn"; "Sb"; "Te"; "I"; "Xe"; "Cs"; "Ba"; "La"; "Ce"; "Pr"; "Nd"; "Pm"; "Sm"; "Eu"; "Gd"; "Tb"; "Dy";
   "Ho"; "Er"; "Tm"; "Yb"; "Lu"; "Hf"; "Ta"; "W"; "Re"; "Os"; "Ir"; "Pt"; "Au"; "Hg"; "Tl"; "Pb"; "Bi"; "Po"; "At"; "Rn"; "Fr"; "Ra";
   "Ac"; "Th"; "Pa"; "U"; "Np"; "Pu"; "Am"; "Cm"; "Bk"; "Cf"; "Es"; "Fm"; "Md"; "No"; "Lr"; "Rf"; "Db"; "Sg"; "Bh"; "Hs"; "Mt"; "Ds";
   "Rg"; "Cn"; "Nh"; "Fl"; "Mc"; "Lv"; "Ts"; "Og"]%string.
Definition table : od Z string := combine (map Z.of_nat (seq 0 (length element_table))) element_table.
(** 124: a later element with the same symbol would win *)
Definition table_inv : od string Z := fold_left (fun d kv => od_set (snd kv) (fst kv) d) table [].
(** 127-132 *)
Definition symbol (z : Z) : result string := match od_get z table with Some s => Ok s | None => Err KeyError end.
Definition Z_of (s : string) : result Z := match od_get s table_inv with Some z => Ok z | None => Err KeyError end.

(** ** math/optimize.py *)
Section Optimize.
  Context {X : Type}.                                     (* points *)
  Record opt : Type := mkOpt { o_success : bool; o_fun : R; o_x : X }.
  (** [minimize f method start n] is what the optimiser ([scipy.optimize.minimize], or [minimize_migrad])
      returns in the [n]-th attempt *)
  Variable minimize : (X -> R) -> string -> X -> nat -> opt.
  Variable iminuit : bool.                                (* iminuit is installed *)
  (** 27-51: the loop over the methods of one try; [n] counts the attempts; the left result returns *)
  Fixpoint methods_loop (f : X -> R) (x0 : X) (val : R) (ms : list string) (n : nat) (start : X) (last : option opt)
      : opt + (nat * X * option opt) :=
    match ms with
    | [] => inr (n, start, last)
    | m :: ms =>
      if eqb m "MIGRAD"%string && negb iminuit then methods_loop f x0 val ms n start last
      else
        let o := minimize f m x0 n in                     (* starts from x0, not from [start] *)
        if o_success o then inl o
        else methods_loop f x0 val ms (Datatypes.S n) (if Rlt_dec (o_fun o) val then o_x o else start) (Some o)
    end.
  Fixpoint tries_loop (f : X -> R) (x0 : X) (val : R) (ms : list string) (tries n : nat) (start : X) (last : option opt) : result opt :=
    match tries with
    | O => match last with Some o => Ok o | None => Err UnboundLocalError end
    | Datatypes.S tries =>
      match methods_loop f x0 val ms n start last with
      | inl o => Ok o
      | inr (n, start, last) => tries_loop f x0 val ms tries n start last
      end
    end.
  Definition default_methods : list string := ["SLSQP"; "MIGRAD"; "BFGS"; "Nelder-Mead"]%string.
  (** 6-52 [minimize_robust]; the function has no further arguments *)
  Definition minimize_robust (f : X -> R) (x0 : X) (methods : option (list string)) (tries : nat) : result opt :=
    tries_loop f x0 (f x0) (match methods with Some ms => ms | None => default_methods end) tries 0 x0 None.
  (** 54-65 [maximize_robust] *)
  Definition maximize_robust (f : X -> R) (x0 : X) (methods : option (list string)) (tries : nat) : result opt :=
    do res <- minimize_robust (fun x => - f x) x0 methods tries;
    Ok (mkOpt (o_success res) (- o_fun res) (o_x res)).
End Optimize.
Arguments opt : clear implicits.

(** ** statistics/functions.py *)
Section Statistics.
  Variables norm_cdf norm_ppf : R -> R.
  Variables chi2_cdf chi2_ppf : R -> R -> R.              (* degrees of freedom first *)
  (** 7-14 *)
  Definition confidence_level (nsigma : R) : R := (norm_cdf nsigma - 0.5) * 2.
  (** 16-26 *)
  Definition delta_chi2 (nsigma dof : R) : R :=
    if Req_EM_T dof 1 then nsigma ^ 2 else chi2_ppf dof (confidence_level nsigma).
  (** 28-40 *)
  Definition pull (delta dof : R) : R :=
    if Req_EM_T dof 1 then sqrt (Rabs delta) else norm_ppf (0.5 + chi2_cdf dof delta / 2).
  (** 42-45 *)
  Definition pvalue (chi2 dof : R) : R := 1 - chi2_cdf dof chi2.
End Statistics.
