(** * Model of flavio/physics/running/running.py (15-128, 316-352)

    Scales and couplings are real numbers.  The numerical solution of the differential equations
    ([scipy.integrate.odeint]) is an oracle, as is the strong coupling [qcd.alpha_s] of the wilson
    package. *)
From Coq Require Import Reals.
From Verif Require Import Base.
Set Implicit Arguments.
Local Open Scope R_scope.

(** flavio.config['RGE thresholds'] *)
Record thresholds : Type := mkT { t_mc : R; t_mb : R; t_mt : R }.

(** running.py 15-23 [_thresholds]; [None] is infinity *)
Definition threshold (t : thresholds) (nf : nat) : option R :=
  if Nat.eqb nf 3 then Some (0.1) else if Nat.eqb nf 4 then Some (t_mc t)
  else if Nat.eqb nf 5 then Some (t_mb t) else if Nat.eqb nf 6 then Some (t_mt t) else None.
(** [max(thresholds[nf], x)], [min(thresholds[nf], x)]; [None] (infinity) occurs for the minimum only *)
Definition max_thr (o : option R) (x : R) : R := match o with Some y => Rmax y x | None => x end.
Definition min_thr (o : option R) (x : R) : R := match o with Some y => Rmin y x | None => x end.
Definition thr_or (o : option R) (d : R) : R := match o with Some y => y | None => d end.
Definition reqb (a b : R) : bool := if Req_EM_T a b then true else false.

Section Evolve.
  Context {Y D : Type}.                 (* vectors; functions [derivative_nf] *)
  (** 25-27 [rg_evolve(y, derivative_nf(nf), a, b)] integrates from a to b with nf flavours *)
  Variable evolve : D -> nat -> R -> R -> Y -> Y.

  (** 41-57, the loop of running down; [scale_in_nf] and [y] are its variables.  Falling out of the loop
      returns the last solution, which does not exist if every [nf] was skipped. *)
  Fixpoint run_down (t : thresholds) (d : D) (nfs : list nat) (scale_in scale_out : R) (nf_out : option nat)
      (scale_in_nf : R) (y : Y) (sol : option Y) : result Y :=
    match nfs with
    | [] => match sol with Some s => Ok s | None => Err UnboundLocalError end
    | nf :: nfs =>
      if match threshold t nf with Some x => if Rle_dec scale_in x then true else false | None => true end
      then run_down t d nfs scale_in scale_out nf_out scale_in_nf y sol
      else
        let scale_stop := if match nf_out with Some n => Nat.eqb nf n | None => false end then scale_out
                          else max_thr (threshold t nf) scale_out in
        let s := evolve d nf scale_in_nf scale_stop y in
        if reqb scale_stop scale_out then Ok s
        else run_down t d nfs scale_in scale_out nf_out (thr_or (threshold t nf) scale_out) s (Some s)
    end.
  (** 58-72, the loop of running up *)
  Fixpoint run_up (t : thresholds) (d : D) (nfs : list nat) (scale_in scale_out : R)
      (scale_in_nf : R) (y : Y) (sol : option Y) : result Y :=
    match nfs with
    | [] => match sol with Some s => Ok s | None => Err UnboundLocalError end
    | nf :: nfs =>
      if Nat.ltb nf 6 && match threshold t (Datatypes.S nf) with Some x => if Rge_dec scale_in x then true else false | None => false end
      then run_up t d nfs scale_in scale_out scale_in_nf y sol
      else
        let scale_stop := min_thr (threshold t (Datatypes.S nf)) scale_out in
        let s := evolve d nf scale_in_nf scale_stop y in
        if reqb scale_stop scale_out then Ok s
        else run_up t d nfs scale_in scale_out (thr_or (threshold t (Datatypes.S nf)) scale_out) s (Some s)
    end.
  (** 39-72 the body of [_rg_evolve_sm] *)
  Definition evolve_sm_body (t : thresholds) (y : Y) (d : D) (scale_in scale_out : R) (nf_out : option nat) : result Y :=
    if Rgt_dec scale_in scale_out then run_down t d [6; 5; 4; 3]%nat scale_in scale_out nf_out scale_in y None
    else if Rlt_dec scale_in scale_out then run_up t d [3; 4; 5; 6]%nat scale_in scale_out scale_in y None
    else Err UnboundLocalError.

  (** *** The cache (38).  [functools.lru_cache] keeps the results of the last [maxsize] different
      arguments.  The keys are the arguments of [_rg_evolve_sm]; the configuration is not among them.  The
      results are arrays, that is, references: the caller gets the array that is in the cache. *)
  Definition key : Type := (Y * D * R * R * option nat)%type.
  Variable key_eqb : key -> key -> bool.          (* equality of the arguments *)
  Variable maxsize : nat.
  Definition cache : Type := list (key * nat).
  Definition cache_get (k : key) (c : cache) : option nat := option_map snd (find (fun kv => key_eqb k (fst kv)) c).
  Definition cache_put (k : key) (v : nat) (c : cache) : cache :=
    firstn maxsize ((k, v) :: filter (fun kv => negb (key_eqb k (fst kv))) c).
  (** The configuration, the cache, and the arrays made so far (array number [i] at position [i]) *)
  Record rstate : Type := mkRS { rs_thr : thresholds; rs_cache : cache; rs_heap : list Y }.
  (** 29-36 [rg_evolve_sm]; the result is the number of the array.  Exceptions are not cached. *)
  Definition rg_evolve_sm (st : rstate) (y : Y) (d : D) (scale_in scale_out : R) (nf_out : option nat) : rstate * result nat :=
    if Req_EM_T scale_in scale_out
    then (mkRS (rs_thr st) (rs_cache st) (rs_heap st ++ [y]), Ok (length (rs_heap st)))   (* a deep copy *)
    else if Rlt_dec scale_out 0.1 then (st, Err ValueError)
    else
      let k := (y, d, scale_in, scale_out, nf_out) in
      match cache_get k (rs_cache st) with
      | Some l => (mkRS (rs_thr st) (cache_put k l (rs_cache st)) (rs_heap st), Ok l)
      | None =>
        match evolve_sm_body (rs_thr st) y d scale_in scale_out nf_out with
        | Ok v => (mkRS (rs_thr st) (cache_put k (length (rs_heap st)) (rs_cache st)) (rs_heap st ++ [v]), Ok (length (rs_heap st)))
        | Err e => (st, Err e)
        end
      end.
  Fixpoint set_at (i : nat) (y : Y) (l : list Y) : list Y :=
    match l, i with
    | [], _ => []
    | _ :: l, O => y :: l
    | x :: l, Datatypes.S i => x :: set_at i y l
    end.
  (** A session: changes of the configuration, calls, and changes in place of an array that a call
      returned.  What is observed of a call is the content of the array it returns. *)
  Inductive rop : Type :=
  | SetThresholds (t : thresholds)
  | Run (y : Y) (d : D) (scale_in scale_out : R) (nf_out : option nat)
  | Overwrite (i : nat) (y : Y).
  Definition rstep (st : rstate) (o : rop) : rstate * option (result Y) :=
    match o with
    | SetThresholds t' => (mkRS t' (rs_cache st) (rs_heap st), None)
    | Run y d a b n =>
      let '(st, r) := rg_evolve_sm st y d a b n in
      (st, Some (match r with
                 | Ok i => match nth_error (rs_heap st) i with Some v => Ok v | None => Err IndexError end
                 | Err e => Err e end))
    | Overwrite i y => (mkRS (rs_thr st) (rs_cache st) (set_at i y (rs_heap st)), None)
    end.
  Fixpoint rrun (st : rstate) (l : list rop) : list (option (result Y)) :=
    match l with [] => [] | o :: l => let '(st, r) := rstep st o in r :: rrun st l end.
End Evolve.

(** 75-85 [run_alpha_e]; it is cached, too, but all it depends on is among the arguments *)
Definition run_alpha_e (a scale_in scale_out n_u n_d n_e : R) : result R :=
  if Req_EM_T scale_out scale_in then Ok a
  else let beta0 := - 4 / 3 * (4 * n_u / 3 + n_d / 3 + n_e) in
       let denominator := 1 + a * beta0 * ln (scale_out / scale_in) / (2 * PI) in
       if Req_EM_T denominator 0 then Err ZeroDivisionError else Ok (a / denominator).

(** 88-103 [get_nf] *)
Definition get_nf (t : thresholds) (scale : R) : result nat :=
  if Rge_dec scale (t_mt t) then Ok 6%nat
  else if Rle_dec (t_mb t) scale then
    if Rlt_dec scale (t_mt t) then Ok 5%nat else Err ValueError
  else if Rle_dec (t_mc t) scale then
    if Rlt_dec scale (t_mb t) then Ok 4%nat else if Rlt_dec scale (t_mc t) then Ok 3%nat else Err ValueError
  else Ok 3%nat.

(** 106-128 [get_alpha_e]; [nf_out or get_nf(scale)]: zero counts as not given *)
Definition choose_nf (t : thresholds) (scale : R) (nf_out : option nat) : result nat :=
  match nf_out with Some (Datatypes.S n) => Ok (Datatypes.S n) | _ => get_nf t scale end.
Definition MZ : R := 91.1876.
Definition get_alpha_e (t : thresholds) (aeMZ scale : R) (nf_out : option nat) : result R :=
  do nf <- choose_nf t scale nf_out;
  match nf with
  | 5%nat => run_alpha_e aeMZ MZ scale 2 3 3
  | 6%nat => do aemt <- run_alpha_e aeMZ MZ (t_mt t) 2 3 3; run_alpha_e aemt (t_mt t) scale 3 3 3
  | 4%nat => do aemb <- run_alpha_e aeMZ MZ (t_mb t) 2 3 3; run_alpha_e aemb (t_mb t) scale 2 2 3
  | 3%nat => do aemb <- run_alpha_e aeMZ MZ (t_mb t) 2 3 3;
             do aemc <- run_alpha_e aemb (t_mb t) (t_mc t) 2 2 3;
             run_alpha_e aemc (t_mc t) scale 1 2 2
  | _ => Err ValueError
  end.

(** 316-338 [get_f_perp]; [alpha_s nf scale] is [get_alpha_s(par, scale, nf_out=nf)] *)
Section Fperp.
  Variable alpha_s : nat -> R -> R.
  (** 341-352 [_rg_factor_f_perp] *)
  Definition rg_factor (a b : R) (nf : nat) : R := Rpower (alpha_s nf b / alpha_s nf a) (4 / (33 - 2 * INR nf)).
  Fixpoint f_perp_loop (t : thresholds) (nfs : list nat) (scale : R) (nf_out : option nat) (start f : R) : option R :=
    match nfs with
    | [] => None                                       (* returns None *)
    | nf :: nfs =>
      let stop := if match nf_out with Some n => Nat.eqb n nf | None => false end then scale
                  else min_thr (threshold t (Datatypes.S nf)) scale in
      let f := rg_factor start stop nf * f in
      if reqb stop scale then Some f
      else f_perp_loop t nfs scale nf_out (thr_or (threshold t (Datatypes.S nf)) scale) f
    end.
  Definition get_f_perp (t : thresholds) (f scale : R) (nf_out : option nat) : option R :=
    if Req_EM_T scale 2 then Some f else f_perp_loop t [3; 4; 5; 6]%nat scale nf_out 2 f.
End Fperp.
