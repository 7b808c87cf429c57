(** * Model of flavio/physics/mesonmixing: common.py, amplitude.py, wilsoncoefficient.py and observables.py 1-126

    Floats are idealised as real numbers, complex numbers as pairs of them.  Parameters are a function of their
    names (a missing parameter, a KeyError in Python, is not modelled); the running masses and couplings, the
    configured scales and the CKM matrix are parameters of the model.  Division by zero gives an unspecified number
    here and ZeroDivisionError in Python: the theorems exclude it. *)
From Coq Require Import Reals.
From Coquelicot Require Import Complex.
From Verif Require Import Base Basics_Model.
Set Implicit Arguments.
Local Open Scope R_scope.

Inductive meson := B0 | Bs | K0 | D0.
Definition meson_name (m : meson) : string := match m with B0 => "B0" | Bs => "Bs" | K0 => "K0" | D0 => "D0" end%string.
(** common.py 5 [meson_quark] *)
Definition meson_quark (m : meson) : string * string :=
  match m with B0 => ("b", "d") | Bs => ("b", "s") | K0 => ("s", "d") | D0 => ("u", "c") end%string.

(** ** common.py *)
(** [cmath.sqrt]: the principal root; on the negative real axis the one in the upper half plane (signed zeros are
    not modelled) *)
Definition csqrt (z : C) : C :=
  (sqrt ((Cmod z + fst z) / 2), if Rlt_dec (snd z) 0 then - sqrt ((Cmod z - fst z) / 2) else sqrt ((Cmod z - fst z) / 2)).
(** 34-39 [q_over_p] *)
Definition q_over_p (M12 G12 : C) : C :=
  if Ceq_dec (RtoC 2 * M12 - Ci * G12)%C (RtoC 0) then RtoC (-1)
  else (- csqrt ((RtoC 2 * Cconj M12 - Ci * Cconj G12) / (RtoC 2 * M12 - Ci * G12)))%C.
(** 24-27 [DeltaM], 29-32 [DeltaGamma] *)
Definition DeltaM (M12 G12 : C) : R := -2 * fst (q_over_p M12 G12 * (M12 - Ci / RtoC 2 * G12))%C.
Definition DeltaGamma (M12 G12 : C) : R := -4 * snd (q_over_p M12 G12 * (M12 - Ci / RtoC 2 * G12))%C.
(** 41-47 [a_fs] *)
Definition a_fs (M12 G12 : C) : R := Cmod G12 / Cmod M12 * sin (phase (- M12 / G12)%C).
(** 7-22 [bag_msbar2rgi]; for the D meson the function raises UnboundLocalError, and is not called *)
Definition bag_msbar2rgi (alpha_s : R) (m : meson) : R :=
  let '(J, g) := match m with K0 => (307 / 162, 2 / 9) | _ => (5165 / 3174, 6 / 23) end in
  Rpower alpha_s (- g) * (1 + alpha_s / (4 * PI) * J).

(** ** wilsoncoefficient.py *)
(** 9-31 [F_box] *)
Definition F_box (x y : R) : R :=
  if Req_EM_T x 0 then
    if Req_EM_T y 0 then 1 else (1 - y + y * ln y) / (-1 + y) ^ 2
  else if Req_EM_T y 0 then (1 - x + x * ln x) / (-1 + x) ^ 2
  else if Req_EM_T x y then
    (4 + 4 * x - 15 * x ^ 2 + x ^ 3) / (4 * (-1 + x) ^ 2) + (x * (-4 + 4 * x + 3 * x ^ 2) * ln x) / (2 * (-1 + x) ^ 3)
  else
    (4 - 7 * x * y) / (4 - 4 * x - 4 * y + 4 * x * y)
    + (x ^ 2 * (4 + (-8 + x) * y) * ln x) / (4 * (-1 + x) ^ 2 * (x - y))
    - ((4 + x * (-8 + y)) * y ^ 2 * ln y) / (4 * (x - y) * (-1 + y) ^ 2).
(** 33-36 [S0_box] *)
Definition S0_box (x y xu : R) : R := F_box x y + F_box xu xu - F_box x xu - F_box y xu.

(** xi('t', 'bd')(par), of ckm.py 89-114 (see Basics_Model.xi, C52) with V the CKM matrix of the parameters *)
Definition xi_of (V : ckm) (a : string) (bc : string * string) : C :=
  match xi a (fst bc ++ snd bc)%string with Ok f => f V | Err _ => RtoC 0 end.

Inductive unitarity := Ut | Ct.
Section Amplitude.
  Definition params := string -> R.
  Variable get_mt_mt : params -> R.                      (* running.get_mt_mt *)
  Variable get_mq : string -> params -> R -> R.           (* running.get_mq *)
  Variable get_alpha_s : params -> R -> R.                (* running.get_alpha(...)['alpha_s'] *)
  Variable scale : meson -> R.                            (* config['renormalization scale'][meson + ' mixing'] *)
  Variable K_mixing : unitarity.                          (* config['implementation']['K mixing unitarity'] *)
  (** 38-99 [cvll_d] *)
  Definition cvll_d (V : ckm) (par : params) (m : meson) : C :=
    let mW := par "m_W"%string in
    let xt := get_mt_mt par ^ 2 / mW ^ 2 in
    let xc := par "m_c"%string ^ 2 / mW ^ 2 in
    let xu := par "m_u"%string ^ 2 / mW ^ 2 in
    let didj := meson_quark m in
    let N := - par "GF"%string ^ 2 / (4 * PI ^ 2) * mW ^ 2 in
    let eta (s : string) := par ("eta_" ++ s)%string in
    let n := meson_name m in
    match m with
    | K0 =>
      match K_mixing with
      | Ut =>
        let xit := xi_of V "t" didj in
        let xiu := xi_of V "u" didj in
        (RtoC N * (RtoC (eta ("tt_" ++ n ++ "_ut")%string) * (xit * xit * RtoC (S0_box xt xt xc))
                   + RtoC (eta ("ut_" ++ n ++ "_ut")%string) * (RtoC 2 * xiu * xit * RtoC (S0_box xu xt xc))
                   + RtoC (eta ("uu_" ++ n ++ "_ut")%string) * (xiu * xiu * RtoC (S0_box xu xu xc))))%C
      | Ct =>
        let xit := xi_of V "t" didj in
        let xic := xi_of V "c" didj in
        (RtoC N * (RtoC (eta ("tt_" ++ n)%string) * (xit * xit * RtoC (S0_box xt xt xu))
                   + RtoC (eta ("ct_" ++ n)%string) * (RtoC 2 * xic * xit * RtoC (S0_box xc xt xu))
                   + RtoC (eta ("cc_" ++ n)%string) * (xic * xic * RtoC (S0_box xc xc xu))))%C
      end
    | _ =>
      let xit := xi_of V "t" didj in
      (RtoC (N * eta ("tt_" ++ n)%string) * (xit * xit * RtoC (S0_box xt xt xu)))%C
    end.

  (** ** amplitude.py *)
  (** 15-42 [matrixelements] *)
  Definition matrixelements (par : params) (m : meson) : od string R :=
    let n := meson_name m in
    let mM := par ("m_" ++ n)%string in
    let fM := par ("f_" ++ n)%string in
    let BM (i : string) := par ("bag_" ++ n ++ "_" ++ i)%string in
    let r := (mM / (get_mq (fst (meson_quark m)) par (scale m) + get_mq (snd (meson_quark m)) par (scale m))) ^ 2 in
    [("CVLL", mM * fM ^ 2 * (1 / 3) * BM "1");
     ("CSLR", mM * fM ^ 2 * (1 / 4) * BM "4" * r);
     ("CVRR", mM * fM ^ 2 * (1 / 3) * BM "1");
     ("CVLR", - mM * fM ^ 2 * (1 / 6) * BM "5" * r);
     ("CSLL", - mM * fM ^ 2 * (5 / 24) * BM "2" * r);
     ("CSRR", - mM * fM ^ 2 * (5 / 24) * BM "2" * r);
     ("CTLL", mM * fM ^ 2 * (1 / 2) * r * (5 * BM "2" / 3 - 2 * BM "3" / 3));
     ("CTRR", mM * fM ^ 2 * (1 / 2) * r * (5 * BM "2" / 3 - 2 * BM "3" / 3))]%string.
  (** 44-59 [M12_d_SM] *)
  Definition M12_d_SM (V : ckm) (par : params) (m : meson) : C :=
    let cvll := match od_get "CVLL"%string (matrixelements par m) with Some x => x | None => 0 end in
    (- cvll_d V par m * RtoC (cvll * bag_msbar2rgi (get_alpha_s par (scale m)) m))%C.
  (** 99 [_ps] *)
  Definition ps : R := 1519267515435.317.
  (** 110-116 [M12_u_SM], 101-107 [G12_u_SM] *)
  Definition D_SM (V : ckm) (par : params) (pre : string) : C :=
    let xib := xi_of V "b" ("u", "c")%string in
    let xis := xi_of V "s" ("u", "c")%string in
    ((RtoC (par (pre ++ " a_ss")%string) * (xis * xis) + RtoC (par (pre ++ " a_bs")%string) * xib * xis
      + RtoC (par (pre ++ " a_bb")%string) * (xib * xib)) / RtoC ps)%C.
  Definition M12_u_SM (V : ckm) (par : params) : C := D_SM V par "M12_D".
  Definition G12_u_SM (V : ckm) (par : params) : C := D_SM V par "Gamma12_D".
  (** 62-84 [M12]; [wc.get(name, 0)] *)
  Definition M12 (V : ckm) (par : params) (wc : od string C) (m : meson) : C :=
    let didj := (fst (meson_quark m) ++ snd (meson_quark m))%string in
    let np := fold_left (fun (acc : C) (kv : string * R) =>
                let c := match od_get (fst kv ++ "_" ++ didj ++ didj)%string wc with Some c => c | None => RtoC 0 end in
                (acc + (- c) * RtoC (snd kv))%C) (matrixelements par m) (RtoC 0) in
    (np + match m with D0 => M12_u_SM V par | _ => M12_d_SM V par m end)%C.
  (** 86-97 [G12_d_SM], [G12_d]; 119-121 [G12_u] *)
  Definition G12_d_SM (V : ckm) (par : params) (m : meson) : C :=
    let n := meson_name m in
    let xit := xi_of V "t" (meson_quark m) in
    let xiu := xi_of V "u" (meson_quark m) in
    (M12_d_SM V par m * (RtoC (par ("Gamma12_" ++ n ++ "_c")%string) + RtoC (par ("Gamma12_" ++ n ++ "_a")%string) * xiu / xit)
       * RtoC (1 / 10000))%C.
  (** observables.py 18-29 [get_M12_G12], given the dictionary of Wilson coefficients that [wc_obj.get_wc] returns *)
  Definition get_M12_G12 (V : ckm) (par : params) (wc : od string C) (m : meson) : C * C :=
    (M12 V par wc m, match m with K0 => RtoC 0 | D0 => G12_u_SM V par | _ => G12_d_SM V par m end).
End Amplitude.

(** ** observables.py: functions of the amplitudes M12 and Gamma12 that [get_M12_G12] returns *)
(** 31-40 *)
Definition DeltaM_12 (a : C * C) : R := - DeltaM (fst a) (snd a).
Definition DeltaM_positive (a : C * C) : R := Rabs (DeltaM (fst a) (snd a)).
(** 50-62 *)
Definition DeltaGamma_B (a : C * C) : R :=
  if Rgt_dec (DeltaM (fst a) (snd a)) 0 then DeltaGamma (fst a) (snd a) else - DeltaGamma (fst a) (snd a).
(** 64-69 *)
Definition DeltaGamma_12 (a : C * C) : R := DeltaGamma (fst a) (snd a).
(** 71-95 *)
Definition x (a : C * C) (tau : R) : R := DeltaM_12 a * tau.
Definition y (a : C * C) (tau : R) : R := DeltaGamma_12 a * tau / 2.
Definition x12 (a : C * C) (tau : R) : R := 2 * Cmod (fst a) * tau.
Definition y12 (a : C * C) (tau : R) : R := Cmod (snd a) * tau.
Definition phi12 (a : C * C) : R := phase (fst a / snd a)%C.
Definition x12Im (a : C * C) (tau : R) : R := x12 a tau * sin (phi12 a).
(** 97-101 *)
Definition epsK (a : C * C) (keps DMK : R) : R := keps * snd (fst a) / DMK / sqrt 2.
(** 111-120; [A] and [A_bar] are the amplitudes for the parameters and the conjugated parameters *)
Definition S_cp (a : C * C) (A A_bar : C) (etaCP : R) : R :=
  let qp := q_over_p (fst a) (snd a) in
  let qp := if Rlt_dec (DeltaM (fst a) (snd a)) 0 then (- qp)%C else qp in
  let xi := (RtoC etaCP * qp * A / A_bar)%C in
  -2 * snd xi / (1 + Cmod xi ^ 2).
(** 103-109, 122-126 *)
Definition S_BJpsiK (a : C * C) (V V_bar : ckm) : R := S_cp a (xi_of V "c" ("b", "d")%string) (xi_of V_bar "c" ("b", "d")%string) (-1).
Definition S_Bspsiphi (a : C * C) (V V_bar : ckm) : R := S_cp a (xi_of V "c" ("b", "s")%string) (xi_of V_bar "c" ("b", "s")%string) 1.
