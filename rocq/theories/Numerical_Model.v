(** * Model of NumericalDistribution (flavio/statistics/probability.py 860-997), of the conversion of
    other distributions to tables and of their combination and convolution

    Floats are idealised as reals; numpy arrays as lists.  [interp1d] is modelled for ascending
    abscissae and floats (numpy.interp); it sorts unsorted tables first, which is not modelled: the
    theorems are for ascending tables, as documented.  NaN tables (division 0/0) are [None]. *)
From Coq Require Import Reals.
From Verif Require Import Base Dist_Model.
Set Implicit Arguments.
Local Open Scope R_scope.

(** [numpy.trapz(y, x=x)] *)
Fixpoint trapz (x y : list R) : R :=
  match x, y with
  | a :: ((b :: _) as x'), fa :: ((fb :: _) as y') => (b - a) * (fa + fb) / 2 + trapz x' y'
  | _, _ => 0
  end.
(** [numpy.cumsum(y[:-1] * numpy.diff(x))] preceded by the start value [acc] *)
Fixpoint cumulate (acc : R) (x y : list R) : list R :=
  match x, y with
  | a :: ((b :: _) as x'), fa :: y' => acc :: cumulate (acc + fa * (b - a)) x' y'
  | _ :: _, _ => [acc]
  | [], _ => []
  end.
(** numpy.interp at a point not left of the first abscissa: the segment of the last abscissa that is
    not larger than the argument *)
Fixpoint interp_from (xp fp : list R) (t : R) : R :=
  match xp, fp with
  | a :: ((b :: _) as xp'), fa :: ((fb :: _) as fp') =>
    if Rlt_dec t b then fa + (fb - fa) / (b - a) * (t - a) else interp_from xp' fp' t
  | _ :: _, fa :: _ => fa
  | _, _ => 0
  end.
(** scipy.interpolate.interp1d, kind linear: [None] outside the range *)
Definition interp (xp fp : list R) (t : R) : option R :=
  match xp with
  | [] => None
  | a :: _ => if Rlt_dec t a then None else if Rlt_dec (last xp 0) t then None else Some (interp_from xp fp t)
  end.
(** [numpy.argmax]: the first maximum, as the abscissa there *)
Fixpoint argmax_from (bx best : R) (x y : list R) : R :=
  match x, y with
  | a :: x, fa :: y => if Rlt_dec best fa then argmax_from a fa x y else argmax_from bx best x y
  | _, _ => bx
  end.

Record numdist : Type := {
  nx : list R;
  ny : list R;
  ncentral : R;
  ny_norm : option (list R);
  ncdf : option (list R)
}.

(** probability.py 864-896.  Arrays of different lengths raise ValueError somewhere in numpy/scipy. *)
Definition mk_numerical (x y : list R) (central_value : option R) : result numdist :=
  match x, y with
  | [], _ => Err (match central_value with Some _ => IndexError | None => ValueError end)
  | x0 :: x', y =>
    do c <- match central_value with
            | Some c => if Rle_dec x0 c then if Rle_dec c (last x 0) then Ok c else Err ValueError else Err ValueError   (* 879-884 *)
            | None => match y with [] => Err ValueError | y0 :: y' => Ok (argmax_from x0 y0 x' y') end                    (* 885-887 *)
            end;
    if negb (Nat.eqb (length x) (length y)) then Err ValueError else
    let t := trapz x y in
    let yn := if Req_EM_T t 0 then None else Some (map (fun v => if Rlt_dec (v / t) 0 then 0 else v / t) y) in            (* 888-889 *)
    let cdf := match yn with
               | None => None
               | Some yn => let cum := cumulate 0 x yn in                                                                 (* 892-893 *)
                            if Req_EM_T (last cum 0) 0 then None else Some (map (fun v => v / last cum 0) cum)           (* 894 *)
               end in
    Ok {| nx := x; ny := y; ncentral := c; ny_norm := yn; ncdf := cdf |}
  end.

Section Methods.
  Variable d : numdist.
  (** 888-887: the support *)
  Definition nsupport : R * R := (hd 0 (nx d), last (nx d) 0).
  (** 915-916; [None] is NaN *)
  Definition npdf (t : R) : option R :=
    match ny_norm d with
    | None => None
    | Some yn => match interp (nx d) yn t with Some v => Some v | None => Some 0 end
    end.
  (** 912-913, 909-910: outside the table interp1d raises ValueError *)
  Definition ncdf_at (t : R) : result R :=
    match ncdf d with
    | None => Err TypeError (* NaN *)
    | Some c => match interp (nx d) c t with Some v => Ok v | None => Err ValueError end
    end.
  Definition nppf (r : R) : result R :=
    match ncdf d with
    | None => Err TypeError (* NaN *)
    | Some c => match interp c (nx d) r with Some v => Ok v | None => Err ValueError end
    end.
  (** 902-907: [r] is the uniform random number *)
  Definition nrandom (r : R) : result R := nppf r.
  (** 918-921, [None] is minus infinity (NaN for NaN tables) *)
  Definition nlogpdf (t : R) : option R :=
    match npdf t with Some v => if Rle_dec v 0 then None else Some (ln v) | None => None end.

  (** 937-962 and 964-989; the method 'hpd' is not modelled *)
  Inductive emethod : Type := Central | Limit | Hpd | UnknownMethod.
  Variable conf_level : R -> R.
  Definition nerror_left (m : emethod) (nsigma : R) : result R :=
    match m with
    | Limit => do q <- nppf (1 - conf_level nsigma); Ok (ncentral d - q)
    | _ =>
      do cc <- ncdf_at (ncentral d); do q <- nppf (cc * (1 - conf_level nsigma));
      match m with Central => Ok (ncentral d - q) | Hpd => Err NotImplementedError (* not modelled *) | _ => Err ValueError end
    end.
  Definition nerror_right (m : emethod) (nsigma : R) : result R :=
    match m with
    | Limit => do q <- nppf (conf_level nsigma); Ok (q - ncentral d)
    | _ =>
      do cc <- ncdf_at (ncentral d); do q <- nppf (cc + (1 - cc) * conf_level nsigma);
      match m with Central => Ok (q - ncentral d) | Hpd => Err NotImplementedError (* not modelled *) | _ => Err ValueError end
    end.
End Methods.

(** [numpy.linspace(a, b, n)] *)
Definition linspace (a b : R) (n : nat) : list R :=
  map (fun i => a + INR i * ((b - a) / INR (n - 1))) (seq 0 n).
(** exp of a log-density, 0 for minus infinity *)
Definition exp_log (o : option R) : R := match o with Some v => exp v | None => 0 end.

Section Tables.
  Variable gamma_ppf gamma_cdf : R -> R -> R -> R -> R.
  Variable gamma_logpdf : R -> R -> R -> R -> option R.
  Notation dist := (Dist_Model.dist numdist).
  Definition dlogpdf : dist -> R -> option R := logpdf ncentral gamma_cdf gamma_logpdf nlogpdf.
  (** 991-997 [from_pd], with nsteps = 1000 *)
  Definition from_pd_n (nsteps : nat) (d : dist) : result numdist :=
    match d with
    | Numerical n => Ok n
    | _ => match support ncentral gamma_ppf gamma_cdf d with
           | None => Err TypeError (* does not occur *)
           | Some (lo, hi) =>
             let x := linspace lo hi nsteps in
             mk_numerical x (map (fun t => exp_log (dlogpdf d t)) x) (Some (central ncentral d))
           end
    end.
  Definition from_pd : dist -> result numdist := from_pd_n 1000.

  (** 1949-1960 [_combine_numerical] for two or more tables: exp of the sum of the log-densities *)
  Fixpoint sum_log (l : list (option R)) : option R :=
    match l with
    | [] => Some 0
    | o :: l => match o, sum_log l with Some a, Some b => Some (a + b) | _, _ => None end
    end.
  Definition rmax (l : list R) : R := match l with [] => 0 | a :: l => fold_left Rmax l a end.
  Definition rmin (l : list R) : R := match l with [] => 0 | a :: l => fold_left Rmin l a end.
  Definition combine_tables_n (nsteps : nat) (l : list numdist) : result numdist :=
    let lo := rmax (map (fun d => fst (nsupport d)) l) in
    let hi := rmin (map (fun d => snd (nsupport d)) l) in
    if Rle_dec hi lo then Err ValueError
    else let x := linspace lo hi nsteps in
         mk_numerical x (map (fun t => exp_log (sum_log (map (fun d => nlogpdf d t) l))) x) None.
  Definition combine_tables : list numdist -> result numdist := combine_tables_n 1000.

  (** 1791-1824 [_convolve_numerical] for two or more tables.  scipy's fftconvolve (mode 'full') is
      the discrete convolution; numpy slices are [skipn]/[firstn]. *)
  Definition conv_at (a b : list R) (k : nat) : R :=
    rsum (map (fun j => nth j a 0 * nth (k - j) b 0) (seq 0 (S k))).
  Definition conv_full (a b : list R) : list R := map (conv_at a b) (seq 0 (length a + length b - 1)).
  Definition convolve_grid (nsteps : nat) (same : bool) (l : list numdist) : R * (R * R) * R :=
    let c := if same then match l with d :: _ => ncentral d | [] => 0 end else rsum (map ncentral l) in
    let lo := c - rsum (map (fun d => c - (fst (nsupport d) + (c - ncentral d))) l) in
    let hi := c - rsum (map (fun d => c - (snd (nsupport d) + (c - ncentral d))) l) in
    (c, (lo, hi), (hi - lo) / INR (nsteps - 1)).
  Definition convolve_tables_n (nsteps : nat) (same : bool) (l : list numdist) : result numdist :=
    match l with
    | [] => Err IndexError
    | d0 :: _ =>
      if same && negb (forallb (fun p => req (ncentral p) (ncentral d0)) l) then Err AssertionError else
      let '(c, (lo, hi), delta) := convolve_grid nsteps same l in
      let x := linspace lo hi nsteps in
      let n_c := Z.to_nat (Int_part ((c - lo) / delta)) in
      let y1 := fun d => map (fun t => exp_log (nlogpdf d (t - (c - ncentral d))) * delta) x in
      let y := match l with
               | [] => []
               | d :: ds => fold_left (fun y d => firstn nsteps (skipn n_c (conv_full y (y1 d)))) ds (y1 d)
               end in
      mk_numerical x y (Some c)
    end.
  Definition convolve_tables : bool -> list numdist -> result numdist := convolve_tables_n 10000.
End Tables.
