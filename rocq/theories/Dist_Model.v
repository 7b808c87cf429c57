(** * Model of the univariate distributions of flavio/statistics/probability.py and of
    convolve_distributions / combine_distributions for them

    Python floats are idealised as real numbers [R] (no rounding, no inf/nan); minus infinity as
    a log-density is [None].  scipy functions are oracles (section variables): the quantile
    function of the standard normal, quantile function and CDF of the gamma distribution.
    Numerical distributions (tables, including the General* gamma and the kernel density classes)
    are modelled in Numerical_Model; here they are an abstract
    type with the operations [from_pd], [convolve_numerical], [combine_numerical]. *)
From Coq Require Import Reals.
From Verif Require Import Base.
Set Implicit Arguments.
Local Open Scope R_scope.

Section Dist.
  Context {Num : Type}.                               (* NumericalDistribution and subclasses *)
  Variable num_central : Num -> R.
  Variable norm_ppf : R -> R.                         (* scipy.stats.norm.ppf *)
  Variable gamma_ppf gamma_cdf : R -> R -> R -> R -> R. (* a, loc, scale, argument *)

  (** The attributes that define an instance of each class.  GaussianUpperLimit and the gamma
      counting classes carry the attributes of their base classes, too. *)
  Inductive dist : Type :=
  | Uniform (central_value half_range : R)
  | DiscreteUniform (lowest_value highest_value central_value : Z)
  | Delta (central_value : R)
  | Normal (central_value standard_deviation : R)
  | LogNormal (central_value factor : R)
  | AsymmetricNormal (central_value right_deviation left_deviation : R)
  | HalfNormal (central_value standard_deviation : R)
  | GaussianUpperLimit (limit confidence_level standard_deviation : R)
  | Gamma (a loc scale : R)
  | GammaPositive (a loc scale : R)
  | GammaCounting (scale_factor counts_total counts_background counts_signal : R)
  | GammaUpperLimit (limit confidence_level scale_factor counts_total counts_background counts_signal : R)
  | Numerical (n : Num).

  (** ** Constructors *)

  (** probability.py 139-154: no check *)
  Definition mk_uniform (c h : R) : result dist := Ok (Uniform c h).
  (** probability.py 185-203.  [int((a+b)/2)] truncates towards zero.  [if central_value and ..]
      skips the check for 0. *)
  Definition mk_discrete_uniform (lo hi : Z) (c : option Z) : result dist :=
    match c with
    | None => Ok (DiscreteUniform lo hi (Z.quot (lo + hi) 2))
    | Some c => if (negb (c =? 0) && ((hi <? c) || (c <? lo)))%Z then Err ValueError
                else Ok (DiscreteUniform lo hi c)
    end.
  (** 234-241 *)
  Definition mk_delta (c : R) : result dist := Ok (Delta c).
  (** 273-286 *)
  Definition mk_normal (c s : R) : result dist := if Rle_dec s 0 then Err ValueError else Ok (Normal c s).
  (** 319-358 *)
  Definition mk_lognormal (c f : R) : result dist :=
    if Req_EM_T c 0 then Err ValueError else if Rle_dec f 1 then Err ValueError else Ok (LogNormal c f).
  (** 403-423 *)
  Definition mk_asymmetric (c r l : R) : result dist :=
    if Rle_dec r 0 then Err ValueError else if Rle_dec l 0 then Err ValueError else Ok (AsymmetricNormal c r l).
  (** 475-494 *)
  Definition mk_half (c s : R) : result dist := if Req_EM_T s 0 then Err ValueError else Ok (HalfNormal c s).
  (** 552-568 and 574-576.  With confidence level 1 the quantile is infinite and the standard deviation 0, with
      confidence level 0 a division by zero; both are left to the oracle. *)
  Definition mk_gaussian_upper_limit (limit cl : R) : result dist :=
    if Rlt_dec 1 cl then Err ValueError else if Rlt_dec cl 0 then Err ValueError
    else if Rle_dec limit 0 then Err ValueError
    else let s := limit / norm_ppf (0.5 + cl / 2) in
         if Req_EM_T s 0 then Err ValueError else Ok (GaussianUpperLimit limit cl s).
  (** 586-599; a and scale are not checked *)
  Definition mk_gamma (a loc scale : R) : result dist := if Rlt_dec 0 loc then Err ValueError else Ok (Gamma a loc scale).
  (** 649-666; a and scale are not checked *)
  Definition mk_gamma_positive (a loc scale : R) : result dist := if Rlt_dec 0 loc then Err ValueError else Ok (GammaPositive a loc scale).

  (** 772-793, also 1130-1152: checks on the counts; returns (total, background, signal) *)
  Definition fix_counts (total background signal : option R) : result (R * R * R) :=
    if match total with Some t => if Rlt_dec t 0 then true else false | None => false end then Err ValueError
    else if match background with Some b => if Rlt_dec b 0 then true else false | None => false end then Err ValueError
    else match total, background, signal with
    | Some t, Some b, Some s =>
      if Rlt_dec 1e-15 (Rabs ((t - b - s) / (if Req_EM_T t 0 then 1 else t))) then Err ValueError else Ok (t, b, s)
    | Some t, Some b, None => Ok (t, b, t - b)
    | Some t, None, Some s => Ok (t, t - s, s)
    | None, Some b, Some s => Ok (s + b, b, s)
    | _, _, _ => Err ValueError
    end.
  (** 748-798 *)
  Definition mk_gamma_counting (scale_factor : R) (total background signal : option R) : result dist :=
    if Rle_dec scale_factor 0 then Err ValueError else
    do (t, b, s) <- fix_counts total background signal;
    if Rlt_dec 0 (- b * scale_factor) then Err ValueError else Ok (GammaCounting scale_factor t b s).
  (** 695-697 [GammaDistributionPositive.ppf] *)
  Definition gamma_positive_ppf (a loc scale x : R) : R :=
    let cdf0 := gamma_cdf a loc scale 0 in gamma_ppf a loc scale ((1 - cdf0) * x + cdf0).
  (** 815-850; the scaled distribution is initialised without counts_signal *)
  Definition mk_gamma_upper_limit (limit cl : R) (total background signal : option R) : result dist :=
    if Rlt_dec 1 cl then Err ValueError else if Rlt_dec cl 0 then Err ValueError
    else if Rle_dec limit 0 then Err ValueError
    else do unscaled <- mk_gamma_counting 1 total background signal;
    match unscaled with
    | GammaCounting _ t b s =>
      let limit_unscaled := gamma_positive_ppf (t + 1) (- b * 1) 1 cl in
      do d <- mk_gamma_counting (limit / limit_unscaled) total background None;
      match d with
      | GammaCounting sf t b s => Ok (GammaUpperLimit limit cl sf t b s)
      | _ => Err TypeError (* does not occur *)
      end
    | _ => Err TypeError (* does not occur *)
    end.

  (** ** Central value and support *)
  Definition central (d : dist) : R :=
    match d with
    | Uniform c _ | Delta c | Normal c _ | LogNormal c _ | AsymmetricNormal c _ _ | HalfNormal c _ => c
    | DiscreteUniform _ _ c => IZR c
    | GaussianUpperLimit _ _ _ => 0                            (* 565 *)
    | Gamma a loc scale => loc + (a - 1) * scale                (* 591 *)
    | GammaPositive a loc scale => Rmax (loc + (a - 1) * scale) 0  (* 654-656 *)
    | GammaCounting sf t b _ | GammaUpperLimit _ _ sf t b _ => Rmax (- b * sf + (t + 1 - 1) * sf) 0
    | Numerical n => num_central n
    end.
  (** 658-659 *)
  Definition gamma_positive_support (a loc scale : R) : R * R :=
    (Rmax (Rmin (gamma_ppf a loc scale 1e-9) (Rmax (loc + (a - 1) * scale) 0)) 0,
     gamma_ppf a loc scale (1 - 1e-9 * (1 - gamma_cdf a loc scale 0))).
  (** [None] for tables, see Numerical_Model *)
  Definition support (d : dist) : option (R * R) :=
    match d with
    | Uniform c h => Some (c - h, c + h)                         (* 152-154 *)
    | DiscreteUniform lo hi _ => Some (IZR lo, IZR hi)            (* 203 *)
    | Delta c => Some (c, c)                                     (* 241 *)
    | Normal c s => Some (c - 6 * s, c + 6 * s)                  (* 281-283 *)
    | LogNormal c f =>                                           (* 347-358 *)
      if Rlt_dec c 0 then Some (exp (ln (Rabs c) - 6 * ln f), 0)
      else Some (0, exp (ln (Rabs c) + 6 * ln f))
    | AsymmetricNormal c r l => Some (c - 6 * l, c + 6 * r)      (* 412-414 *)
    | HalfNormal _ s | GaussianUpperLimit _ _ s =>               (* 489-491: sorted(..) *)
      let c := central d in
      Some (Rmin c (c + 6 * s), Rmax c (c + 6 * s))
    | Gamma a loc scale => Some (Rmin (gamma_ppf a loc scale 1e-9) (loc + (a - 1) * scale), gamma_ppf a loc scale (1 - 1e-9)) (* 593-594 *)
    | GammaPositive a loc scale => Some (gamma_positive_support a loc scale)
    | GammaCounting sf t b _ | GammaUpperLimit _ _ sf t b _ => Some (gamma_positive_support (t + 1) (- b * sf) sf)
    | Numerical _ => None
    end.

  (** ** Log-densities ([None] is minus infinity) *)
  (** flavio/math/functions.py 20-27 [normal_logpdf] *)
  Definition normal_logpdf (x mu s : R) : R := - (x - mu) ^ 2 / s ^ 2 / 2 - ln (sqrt (2 * PI) * s).
  (** flavio/math/functions.py 29-36 [normal_pdf] *)
  Definition normal_pdf (x mu s : R) : R := exp (- (x - mu) ^ 2 / s ^ 2 / 2) / (sqrt (2 * PI) * s).
  (** [np.sign] *)
  Definition sign (x : R) : R := if Rlt_dec x 0 then -1 else if Rlt_dec 0 x then 1 else 0.
  Variable gamma_logpdf : R -> R -> R -> R -> option R.   (* scipy.stats.gamma(a, loc, scale).logpdf *)
  Variable num_logpdf : Num -> R -> option R.             (* tables, see Numerical_Model *)
  (** scipy.stats.lognorm.logpdf with shape s and scale exp(m), written out *)
  Definition lognorm_logpdf (x m s : R) : option R :=
    if Rle_dec x 0 then None else Some (normal_logpdf (ln x) m s - ln x).
  (** 699-702 [GammaDistributionPositive.logpdf] *)
  Definition gamma_positive_logpdf (a loc scale x : R) : option R :=
    if Rlt_dec x 0 then None else
    match gamma_logpdf a loc scale x with
    | None => None
    | Some l => Some (l + ln (1 / (1 - gamma_cdf a loc scale 0)))
    end.
  Definition logpdf (d : dist) (x : R) : option R :=
    match d with
    | Uniform c h => if Rlt_dec x (c - h) then None else if Rge_dec x (c + h) then None else Some (- ln (2 * h)) (* 163-167 *)
    | DiscreteUniform lo hi c =>                                                                                  (* 214-218 *)
      if Req_EM_T (IZR (Int_part x)) x then
        if ((lo <=? Int_part x) && (Int_part x <=? hi))%Z then Some (- ln (IZR (hi + 1 - lo))) else None
      else None
    | Delta c => if Req_EM_T x c then Some 0 else None                                                            (* 253-258 *)
    | Normal c s => Some (normal_logpdf x c s)                                                                     (* 295-296 *)
    | AsymmetricNormal c r l =>                                                                                    (* 420-423, 448-457 *)
      let p_right := normal_pdf c c r in
      let p_left := normal_pdf c c l in
      if Rlt_dec x c then Some (ln (2 * p_right / (p_left + p_right)) + normal_logpdf x c l)
      else Some (ln (2 * p_left / (p_left + p_right)) + normal_logpdf x c r)
    | HalfNormal _ s | GaussianUpperLimit _ _ s =>                                                                 (* 503-507 *)
      let c := central d in
      if Rlt_dec (sign s * (x - c)) 0 then None else Some (ln 2 + normal_logpdf x c (Rabs s))
    | LogNormal c f => lognorm_logpdf ((if Rlt_dec c 0 then -1 else 1) * x) (ln (Rabs c)) (ln f)                   (* 347-354, 368-370 *)
    | Gamma a loc scale => gamma_logpdf a loc scale x                                                               (* 614-615 *)
    | GammaPositive a loc scale => gamma_positive_logpdf a loc scale x
    | GammaCounting sf t b _ | GammaUpperLimit _ _ sf t b _ => gamma_positive_logpdf (t + 1) (- b * sf) sf x
    | Numerical n => num_logpdf n x
    end.

  (** ** Cumulative distribution and quantiles *)
  Variable norm_cdf : R -> R.                          (* scipy.stats.norm.cdf *)
  (** scipy.stats.halfnorm.cdf / ppf with loc and scale, in terms of the normal distribution *)
  Definition halfnorm_cdf (x loc scale : R) : R := if Rle_dec x loc then 0 else 2 * norm_cdf ((x - loc) / scale) - 1.
  (** scipy.stats.lognorm.ppf with shape s and scale exp(m) *)
  Definition lognorm_ppf (q m s : R) : R := exp (m + s * norm_ppf q).
  (** 687-693 *)
  Definition gamma_positive_cdf (a loc scale x : R) : R :=
    let cdf0 := gamma_cdf a loc scale 0 in
    if Rlt_dec x 0 then 0 else (gamma_cdf a loc scale x - cdf0) / (1 - cdf0).
  (** [None]: the class has no method [cdf] (AttributeError), or a table *)
  Definition cdf (d : dist) (x : R) : option R :=
    match d with
    | Normal c s => Some (norm_cdf ((x - c) / s))                                         (* 301-302 *)
    | HalfNormal _ s | GaussianUpperLimit _ _ s =>                                         (* 513-521 *)
      let c := central d in
      if Rlt_dec s 0 then Some (1 - halfnorm_cdf (- x) (- c) (- s)) else Some (halfnorm_cdf x c s)
    | Gamma a loc scale => Some (gamma_cdf a loc scale x)                                   (* 608-609 *)
    | GammaPositive a loc scale => Some (gamma_positive_cdf a loc scale x)
    | GammaCounting sf t b _ | GammaUpperLimit _ _ sf t b _ => Some (gamma_positive_cdf (t + 1) (- b * sf) sf x)
    | _ => None
    end.
  (** 382-386 *)
  Definition lognormal_ppf (c f q : R) : R :=
    if Rlt_dec c 0 then - lognorm_ppf (1 - q) (ln (Rabs c)) (ln f) else lognorm_ppf q (ln (Rabs c)) (ln f).

  (** ** Errors.  [conf_level] is flavio.statistics.functions.confidence_level.  [None]: needs a
      numerical root search, not modelled *)
  Variable conf_level : R -> R.
  Definition error_left (d : dist) (nsigma : R) : option R :=
    match d with
    | Uniform _ h => Some (conf_level nsigma * h)                                           (* 173-175 *)
    | DiscreteUniform _ _ _ | Delta _ => Some 0                                              (* 224-225, 263-264 *)
    | Normal _ s => Some (nsigma * s)                                                        (* 307-309 *)
    | LogNormal c f => Some (c - lognormal_ppf c f (0.5 - conf_level nsigma / 2))              (* 388-391 *)
    | AsymmetricNormal _ _ l => Some (nsigma * l)                                            (* 463-465 *)
    | HalfNormal _ s | GaussianUpperLimit _ _ s => Some (if Rge_dec s 0 then 0 else nsigma * - s) (* 534-539 *)
    | _ => None
    end.
  Definition error_right (d : dist) (nsigma : R) : option R :=
    match d with
    | Uniform _ h => Some (conf_level nsigma * h)                                           (* 177-179 *)
    | DiscreteUniform _ _ _ | Delta _ => Some 0                                              (* 227-228, 266-267 *)
    | Normal _ s => Some (nsigma * s)                                                        (* 311-313 *)
    | LogNormal c f => Some (lognormal_ppf c f (0.5 + conf_level nsigma / 2) - c)              (* 393-396 *)
    | AsymmetricNormal _ r _ => Some (nsigma * r)                                            (* 467-469 *)
    | HalfNormal _ s | GaussianUpperLimit _ _ s => Some (if Rle_dec s 0 then 0 else nsigma * s) (* 541-546 *)
    | _ => None
    end.

  (** floats with infinities, for differences of log-densities *)
  Inductive ext : Type := NegInf | Fin (r : R) | PosInf | NaN.
  Definition to_ext (o : option R) : ext := match o with None => NegInf | Some r => Fin r end.
  Definition ext_sub (a b : ext) : ext :=
    match a, b with
    | NaN, _ | _, NaN | NegInf, NegInf | PosInf, PosInf => NaN
    | Fin a, Fin b => Fin (a - b)
    | NegInf, _ | _, PosInf => NegInf
    | PosInf, _ | _, NegInf => PosInf
    end.
  (** 127-134 [delta_logpdf] without [exclude] *)
  Definition delta_logpdf (d : dist) (x : R) : ext := ext_sub (to_ext (logpdf d x)) (to_ext (logpdf d (central d))).

  (** sampling of the asymmetric normal distribution, 437-446: [r] uniform in [0,1), [nl], [nr]
      standard normal variates *)
  Definition asymmetric_random (c right left r nl nr : R) : R :=
    let a := Rabs (left / (right + left)) in
    if Rgt_dec r a then c + Rabs (right * nr) else c - Rabs (left * nl).
  (** 500-501 *)
  Definition half_random (c s n : R) : R := c + sign s * Rabs (Rabs s * n).

  (** ** Convolution, 1629-1772, 1791-1824 *)
  Variable from_pd : dist -> result Num.                      (* NumericalDistribution.from_pd *)
  Variable convolve_num : bool -> list Num -> result Num.     (* _convolve_numerical for >= 2; true = 'same' *)
  Variable combine_num : list Num -> result Num.              (* _combine_numerical for >= 2 *)

  Inductive cmode : Type := Same | Sum | OtherMode.
  Definition is_delta (d : dist) : bool := match d with Delta _ => true | _ => false end.
  Definition is_normal (d : dist) : bool := match d with Normal _ _ => true | _ => false end.
  Definition is_other (d : dist) : bool := negb (is_normal d) && negb (is_delta d).
  Definition req (a b : R) : bool := if Req_EM_T a b then true else false.
  Definition rsum (l : list R) : R := fold_left Rplus l 0.
  Definition deviation (d : dist) : R := match d with Normal _ s => s | _ => 0 end.

  (** 1757-1772 [_convolve_gaussians] *)
  Definition convolve_gaussians (same : bool) (l : list dist) : result dist :=
    match l with
    | [d] => Ok d
    | [] => Err IndexError
    | d0 :: _ =>
      if negb (forallb is_normal l) then Err AssertionError
      else if same && negb (forallb (fun p => req (central p) (central d0)) l) then Err AssertionError
      else let c := if same then central d0 else rsum (map central l) in
           mk_normal c (sqrt (rsum (map (fun d => deviation d ^ 2) l)))
    end.
  (** 1791-1794 [_convolve_numerical], the rest is the oracle [convolve_num] *)
  Definition convolve_numericals (same : bool) (l : list Num) : result Num :=
    match l with [n] => Ok n | _ => convolve_num same l end.
  (** 1664-1712 [_convolve_distributions_univariate]; the second test "== 'same'" in 1692 can never
      be reached with a delta distribution *)
  Definition convolve_univariate (same : bool) (l : list dist) : result dist :=
    match l with
    | [d] => Ok d
    | [] => Err IndexError
    | d0 :: _ =>
      if same && negb (forallb (fun p => req (central p) (central d0)) l) then Err AssertionError
      else
        let deltas := filter is_delta l in
        if negb same && match deltas with [] => false | _ => true end then Err NotImplementedError
        else
          let gaussians := filter is_normal l in
          let others := filter is_other l in
          match others, gaussians with
          | [], [] => match deltas with d :: _ => Ok d | [] => Err IndexError end
          | [], _ => convolve_gaussians same gaussians
          | _, _ =>
            do g <- match gaussians with [] => Ok [] | _ => do g <- convolve_gaussians same gaussians; Ok [g] end;
            do nums <- mapM from_pd (others ++ g);
            do n <- convolve_numericals same nums; Ok (Numerical n)
          end
    end.
  (** 1629-1662 [convolve_distributions], all distributions univariate *)
  Definition convolve (mode : cmode) (l : list dist) : result dist :=
    match mode with
    | OtherMode => Err ValueError
    | Same => convolve_univariate true l
    | Sum => convolve_univariate false l
    end.

  (** ** Combination, 1860-1960 *)
  (** 1928-1934 [weighted_average] *)
  Definition weighted_average (l : list dist) : R * R :=
    let ws := map (fun d => 1 / deviation d ^ 2) l in
    (rsum (map (fun d => 1 / deviation d ^ 2 * central d) l) / rsum ws, sqrt (1 / rsum ws)).
  (** 1937-1946 [_combine_gaussians] *)
  Definition combine_gaussians (l : list dist) : result dist :=
    match l with
    | [d] => Ok d
    | _ => if negb (forallb is_normal l) then Err AssertionError
           else let '(c, u) := weighted_average l in mk_normal c u
    end.
  (** 1949-1951; the rest is the oracle [combine_num] *)
  Definition combine_numericals (l : list Num) : result Num :=
    match l with [n] => Ok n | _ => combine_num l end.
  (** 1860-1925 [combine_distributions] for univariate distributions *)
  Definition combine (l : list dist) : result dist :=
    match l with
    | [] => Err IndexError
    | [d] => Ok d
    | _ =>
      match filter is_delta l with
      | d :: ds => if forallb (fun p => req (central p) (central d)) ds then Ok d else Err ValueError
      | [] =>
        let gaussians := filter is_normal l in
        let others := filter is_other l in
        match others with
        | [] => combine_gaussians gaussians
        | _ =>
          do g <- match gaussians with [] => Ok [] | _ => do g <- combine_gaussians gaussians; Ok [g] end;
          do nums <- mapM from_pd (others ++ g);
          do n <- combine_numericals nums; Ok (Numerical n)
        end
      end
    end.
End Dist.
Arguments dist : clear implicits.
Arguments Uniform {Num}. Arguments DiscreteUniform {Num}. Arguments Delta {Num}. Arguments Normal {Num}.
Arguments LogNormal {Num}. Arguments AsymmetricNormal {Num}. Arguments HalfNormal {Num}.
Arguments GaussianUpperLimit {Num}. Arguments Gamma {Num}. Arguments GammaPositive {Num}.
Arguments GammaCounting {Num}. Arguments GammaUpperLimit {Num}. Arguments Numerical {Num}.

(** ** Dictionary representation of the analytic distributions *)
Section DistDict.
  Context {Num : Type}.
  Variable norm_ppf : R -> R.
  Variable gamma_ppf gamma_cdf : R -> R -> R -> R -> R.
  Notation dist := (dist Num).
  (** values in a dictionary: a float, an int, or None *)
  Inductive dval : Type := VR (r : R) | VZ (z : Z) | VNone.
  (** probability.py 62-72, the values for these classes (see DistNames_Model for the conversion) *)
  Definition dist_name (d : dist) : string :=
    match d with
    | Uniform _ _ => "uniform" | DiscreteUniform _ _ _ => "discrete_uniform" | Delta _ => "delta"
    | Normal _ _ => "normal" | LogNormal _ _ => "log_normal" | AsymmetricNormal _ _ _ => "asymmetric_normal"
    | HalfNormal _ _ => "half_normal" | GaussianUpperLimit _ _ _ => "gaussian_upper_limit"
    | Gamma _ _ _ => "gamma" | GammaPositive _ _ _ => "gamma_positive" | GammaCounting _ _ _ _ => "gamma_counting_process"
    | GammaUpperLimit _ _ _ _ _ _ => "gamma_upper_limit" | Numerical _ => "numerical"
    end%string.
  (** probability.py 74-117 [get_dict]: the attributes named like the arguments of the constructor,
      in the order of the signature.  Tables are not covered here: [None]. *)
  Definition get_dict (d : dist) : option (list (string * dval)) :=
    match d with
    | Uniform c h => Some [("central_value", VR c); ("half_range", VR h)]
    | DiscreteUniform lo hi c => Some [("lowest_value", VZ lo); ("highest_value", VZ hi); ("central_value", VZ c)]
    | Delta c => Some [("central_value", VR c)]
    | Normal c s => Some [("central_value", VR c); ("standard_deviation", VR s)]
    | LogNormal c f => Some [("central_value", VR c); ("factor", VR f)]
    | AsymmetricNormal c r l => Some [("central_value", VR c); ("right_deviation", VR r); ("left_deviation", VR l)]
    | HalfNormal c s => Some [("central_value", VR c); ("standard_deviation", VR s)]
    | GaussianUpperLimit limit cl _ => Some [("limit", VR limit); ("confidence_level", VR cl)]
    | Gamma a loc scale | GammaPositive a loc scale => Some [("a", VR a); ("loc", VR loc); ("scale", VR scale)]
    | GammaCounting sf t b s => Some [("scale_factor", VR sf); ("counts_total", VR t); ("counts_background", VR b); ("counts_signal", VR s)]
    | GammaUpperLimit limit cl _ t b s => Some [("limit", VR limit); ("confidence_level", VR cl); ("counts_total", VR t); ("counts_background", VR b); ("counts_signal", VR s)]
    | Numerical _ => None
    end%string.

  (** the signatures: (name of the argument, required) *)
  Definition signature (cls : string) : option (list (string * bool)) :=
    (if String.eqb cls "uniform" then Some [("central_value", true); ("half_range", true)]
     else if String.eqb cls "discrete_uniform" then Some [("lowest_value", true); ("highest_value", true); ("central_value", false)]
     else if String.eqb cls "delta" then Some [("central_value", true)]
     else if String.eqb cls "normal" || String.eqb cls "half_normal" then Some [("central_value", true); ("standard_deviation", true)]
     else if String.eqb cls "log_normal" then Some [("central_value", true); ("factor", true)]
     else if String.eqb cls "asymmetric_normal" then Some [("central_value", true); ("right_deviation", true); ("left_deviation", true)]
     else if String.eqb cls "gaussian_upper_limit" then Some [("limit", true); ("confidence_level", true)]
     else if String.eqb cls "gamma" || String.eqb cls "gamma_positive" then Some [("a", true); ("loc", true); ("scale", true)]
     else if String.eqb cls "gamma_counting_process" then Some [("scale_factor", false); ("counts_total", false); ("counts_background", false); ("counts_signal", false)]
     else if String.eqb cls "gamma_upper_limit" then Some [("limit", true); ("confidence_level", true); ("counts_total", false); ("counts_background", false); ("counts_signal", false)]
     else None)%string.

  Fixpoint dget (l : list (string * dval)) (k : string) : option dval :=
    match l with [] => None | (k', v) :: l => if String.eqb k' k then Some v else dget l k end.
  (** [float(v)], probability.py 2051-2056 *)
  Definition convertv (v : dval) : dval := match v with VZ z => VR (IZR z) | _ => v end.
  (** [int(x)] of a float *)
  Definition trunc (r : R) : Z := if Rlt_dec r 0 then (- Int_part (- r))%Z else Int_part r.
  Definition num (l : list (string * dval)) (k : string) : result R :=
    match dget l k with Some (VR r) => Ok r | Some (VZ z) => Ok (IZR z) | _ => Err TypeError end.
  Definition opt_num (l : list (string * dval)) (k : string) : option R :=
    match dget l k with Some (VR r) => Some r | Some (VZ z) => Some (IZR z) | _ => None end.

  (** Calling the class with keyword arguments.  DiscreteUniformDistribution compares the given
      numbers and truncates afterwards, which makes no difference for integers. *)
  Definition construct (cls : string) (kw : list (string * dval)) : result dist :=
    match signature cls with
    | None => Err KeyError                              (* class_from_string, 2058 and 2065-2066 *)
    | Some sig =>
      if negb (forallb (fun kv => existsb (fun s => String.eqb (fst s) (fst kv)) sig) kw) then Err TypeError
      else if negb (forallb (fun s => negb (snd s) || match dget kw (fst s) with Some _ => true | None => false end) sig) then Err TypeError
      else
        (if String.eqb cls "uniform" then do c <- num kw "central_value"; do h <- num kw "half_range"; mk_uniform c h
         else if String.eqb cls "discrete_uniform" then
           do lo <- num kw "lowest_value"; do hi <- num kw "highest_value";
           mk_discrete_uniform (trunc lo) (trunc hi) (option_map trunc (opt_num kw "central_value"))
         else if String.eqb cls "delta" then do c <- num kw "central_value"; mk_delta c
         else if String.eqb cls "normal" then do c <- num kw "central_value"; do s <- num kw "standard_deviation"; mk_normal c s
         else if String.eqb cls "half_normal" then do c <- num kw "central_value"; do s <- num kw "standard_deviation"; mk_half c s
         else if String.eqb cls "log_normal" then do c <- num kw "central_value"; do f <- num kw "factor"; mk_lognormal c f
         else if String.eqb cls "asymmetric_normal" then
           do c <- num kw "central_value"; do r <- num kw "right_deviation"; do l <- num kw "left_deviation"; mk_asymmetric c r l
         else if String.eqb cls "gaussian_upper_limit" then
           do l <- num kw "limit"; do cl <- num kw "confidence_level"; mk_gaussian_upper_limit norm_ppf l cl
         else if String.eqb cls "gamma" then
           do a <- num kw "a"; do loc <- num kw "loc"; do scale <- num kw "scale"; mk_gamma a loc scale
         else if String.eqb cls "gamma_positive" then
           do a <- num kw "a"; do loc <- num kw "loc"; do scale <- num kw "scale"; mk_gamma_positive a loc scale
         else if String.eqb cls "gamma_counting_process" then
           let sf := match dget kw "scale_factor" with None => Ok 1 | _ => num kw "scale_factor" end in
           do sf <- sf; mk_gamma_counting sf (opt_num kw "counts_total") (opt_num kw "counts_background") (opt_num kw "counts_signal")
         else do l <- num kw "limit"; do cl <- num kw "confidence_level";
           mk_gamma_upper_limit gamma_ppf gamma_cdf l cl (opt_num kw "counts_total") (opt_num kw "counts_background") (opt_num kw "counts_signal"))%string
    end.
  (** probability.py 2032-2060 [dict2dist] for one dictionary [{distribution: name, **kw}] *)
  Definition dict2dist (name : string) (kw : list (string * dval)) : result dist :=
    construct name (map (fun kv => (fst kv, convertv (snd kv))) kw).
End DistDict.

(** Kernel density estimates: the part of the constructor (probability.py 1269-1283) that checks the
    kernel; the table is computed afterwards.  [get_yaml] (119-125, 96-99) replaces the kernel by its
    dictionary. *)
Section Kde.
  Context {Num : Type}.
  Variable num_central : Num -> R.
  Inductive kernel : Type := KInstance (d : dist Num) | KDict (name : string) (kw : list (string * dval)).
  Definition check_kernel (k : kernel) : result (dist Num) :=
    match k with
    | KDict _ _ => Err AttributeError            (* 'collections.OrderedDict' has no 'central_value' *)
    | KInstance d => if Req_EM_T (central num_central d) 0 then Ok d else Err AssertionError
    end.
  (** get_dict(iterate=False) / get_dict(iterate=True) as seen by dict2dist: [convertv] keeps both *)
  Definition kernel_entry (iterate : bool) (d : dist Num) : option kernel :=
    if iterate then option_map (KDict (dist_name d)) (get_dict d) else Some (KInstance d).
End Kde.

(** GeneralGammaUpperLimit (probability.py 1185-1246 and 1137-1155): treatment of [background_std] and
    its alias, for a given total number of counts; returns the attributes (background_std,
    background_variance). *)
Definition general_background (counts_total : R) (std variance : option R) : result (R * R) :=
  do bs <- match variance, std with
           | Some v, Some s => if Req_EM_T s v then Ok v else Err ValueError
           | Some v, None => Ok v
           | None, Some s => Ok s
           | None, None => Ok 0
           end;
  if Rlt_dec bs 0 then Err ValueError
  else Ok (if Rlt_dec (bs / sqrt (counts_total + 1)) (1 / 100) then 0 else bs, bs).
