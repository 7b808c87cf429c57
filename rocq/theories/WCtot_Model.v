(** * Model: total and effective Wilson coefficients of flavour-changing neutral currents (physics/bdecays/wilsoncoefficients.py, matrixelements.py).
    Reals and complex numbers are exact. *)
From Coq Require Import Reals String List.
From Coquelicot Require Import Coquelicot.
From Verif Require Import Base Angular_Model Rare_Model.
Import ListNotations.
Local Open Scope R_scope.
Local Open Scope string_scope.

(** ** wilsoncoefficients.py 26-29: [scipy.interpolate.interp1d(scales, data)] of the table data/wcsm/wc_sm_dB1_2_55.npy, whose 15 rows (one for each
    coefficient) have one value for each scale. Linear interpolation between neighbouring scales, ValueError outside. The table is a parameter. *)
Definition scales : list R := [2; 5 / 2; 3; 7 / 2; 4; 9 / 2; 5; 11 / 2].
Fixpoint interp (xs ys : list R) (s : R) : result R :=
  match xs, ys with
  | x0 :: ((x1 :: _) as xs'), y0 :: ((y1 :: _) as ys') => if Rle_dec s x1 then Ok (y0 + (s - x0) * ((y1 - y0) / (x1 - x0))) else interp xs' ys' s
  | _, _ => Err ValueError
  end.
Fixpoint traverse {A B} (f : A -> result B) (l : list A) : result (list B) :=
  match l with [] => Ok [] | x :: l => bind (f x) (fun y => bind (traverse f l) (fun ys => Ok (y :: ys))) end.
Definition wcsm_nf5 (data : list (list R)) (scale : R) : result (list R) :=
  if Rlt_dec scale 2 then Err ValueError else traverse (fun row => interp scales row scale) data.

(** 59-77 [fcnclabels] *)
Definition qqs : list string := ["bs"; "bd"; "sd"].
Definition lls : list string := ["ee"; "mumu"; "tautau"].
Definition labels_of (qq ll : string) : list string :=
  ["C1_" ++ qq; "C2_" ++ qq; "C3_" ++ qq; "C4_" ++ qq; "C5_" ++ qq; "C6_" ++ qq; "C7_" ++ qq; "C8_" ++ qq; "C9_" ++ qq ++ ll; "C10_" ++ qq ++ ll;
   "C3Q_" ++ qq; "C4Q_" ++ qq; "C5Q_" ++ qq; "C6Q_" ++ qq; "Cb_" ++ qq;
   "C1p_" ++ qq; "C2p_" ++ qq; "C3p_" ++ qq; "C4p_" ++ qq; "C5p_" ++ qq; "C6p_" ++ qq; "C7p_" ++ qq; "C8p_" ++ qq; "C9p_" ++ qq ++ ll; "C10p_" ++ qq ++ ll;
   "C3Qp_" ++ qq; "C4Qp_" ++ qq; "C5Qp_" ++ qq; "C6Qp_" ++ qq; "Cbp_" ++ qq;
   "CS_" ++ qq ++ ll; "CP_" ++ qq ++ ll; "CSp_" ++ qq ++ ll; "CPp_" ++ qq ++ ll].
Definition fcnclabels : od string (list string) := flat_map (fun qq => map (fun ll => (qq ++ ll, labels_of qq ll)) lls) qqs.
Definition key {A} (k : string) (d : od string A) : result A := match od_get k d with Some x => Ok x | None => Err KeyError end.

(** common.py 20-37 [add_dict] of two dictionaries of complex numbers ([Counter.update]) *)
Definition add_dict2 (a b : od string C) : od string C :=
  fold_left (fun res kv => od_set (fst kv) (snd kv + match od_get (fst kv) res with Some x => x | None => RtoC 0 end)%C res) b a.
(** [np.dot] *)
Fixpoint dot (a b : list C) : C := match a, b with x :: a, y :: b => (x * y + dot a b)%C | _, _ => RtoC 0 end.
Definition upd {A} (n : nat) (f : A -> A) (l : list A) : list A :=
  match nth_error l n with Some x => firstn n l ++ f x :: skipn (S n) l | None => l end.

(** 112-124 [get_C78eff] *)
Definition keys {A} (ks : list string) (d : od string A) : result (list A) := traverse (fun k => key k d) ks.
Definition get_C78eff (wc : od string C) (q : string) : result (od string C) :=
  let yi := map RtoC [- 1 / 3; - 4 / 9; - 20 / 3; - 80 / 9] in
  let zi := map RtoC [1; - 1 / 6; 20; - 10 / 3] in
  bind (keys ["C3_" ++ q; "C4_" ++ q; "C5_" ++ q; "C6_" ++ q] wc) (fun C36 =>
  bind (keys ["C3p_" ++ q; "C4p_" ++ q; "C5p_" ++ q; "C6p_" ++ q] wc) (fun C36p =>
  bind (key ("C7_" ++ q) wc) (fun c7 => bind (key ("C8_" ++ q) wc) (fun c8 =>
  bind (key ("C7p_" ++ q) wc) (fun c7p => bind (key ("C8p_" ++ q) wc) (fun c8p =>
  Ok [("C7eff_" ++ q, c7 + dot yi C36)%C; ("C8eff_" ++ q, c8 + dot zi C36)%C; ("C7effp_" ++ q, c7p + dot yi C36p)%C; ("C8effp_" ++ q, c8p + dot zi C36p)%C])))))).

(** 89-96: top-mass dependence of C10, "non-effective" coefficients *)
Definition sm_noneff (m_t : R) (sm : list R) : list C :=
  let sm := map RtoC sm in
  let sm := upd 9 (fun c => c * RtoC (Rpower (m_t / (1731 / 10)) (153 / 100)))%C sm in
  let yi := map RtoC [0; 0; - 1 / 3; - 4 / 9; - 20 / 3; - 80 / 9] in
  let zi := map RtoC [0; 0; 1; - 1 / 6; 20; - 10 / 3] in
  let sm := upd 6 (fun c => c - dot yi (firstn 6 sm))%C sm in
  upd 7 (fun c => c - dot zi (firstn 6 sm))%C sm.
(** 80-110 [wctot_dict]. Parameters: the result of [get_wc] (new physics), [get_ms], [get_mb] at the scale, m_t. The lists of labels and coefficients are
    paired as by [zip]. *)
Definition wctot_dict (data : list (list R)) (get_wc : result (od string C)) (sector : string) (scale m_t ms mb : R) (nf_out : nat) : result (od string C) :=
  bind get_wc (fun wc_np_dict =>
  if Nat.eqb nf_out 5 then
    bind (wcsm_nf5 data scale) (fun sm =>
    let sm := sm_noneff m_t sm in
    bind (key sector fcnclabels) (fun wc_labels =>
    let wc_sm_dict := combine wc_labels sm in
    bind (if eqb (String.substring 0 2 sector) "bs" then
            let eps_s := RtoC (ms / mb) in
            bind (key "C7_bs" wc_sm_dict) (fun c7 => let d := od_set "C7p_bs" (eps_s * c7)%C wc_sm_dict in
            bind (key "C8_bs" d) (fun c8 => Ok (od_set "C8p_bs" (eps_s * c8)%C d)))
          else Ok wc_sm_dict) (fun wc_sm_dict =>
    let tot_dict := add_dict2 wc_np_dict wc_sm_dict in
    bind (get_C78eff tot_dict (String.substring 0 2 sector)) (fun eff => Ok (od_update tot_dict eff)))))
  else Err NotImplementedError).

(** ** matrixelements.py. The dictionary of coefficients is a function of the name; functions that are interpolated from tables (F_17, F_27, F_19, F_29) or
    given by long formulae (SeidelA, SeidelB) are parameters: their values at the given scale and q2. *)
Record fourquark := FourQuark { mb_pole : R; mc_pole : R; alpha_s : R; xi_ut : C; (* xi_u/xi_t *)
  F17 : C; F27 : C; F19 : C; F29 : C; A_seidel : C; B_seidel : C; zeta3 : R }.
Section Matrixelements.
  Variable d : fourquark.
  Variables (q2 scale : R) (qq : string) (wc : string -> C).
  Definition coef (n : string) : C := wc (n ++ "_" ++ qq).
  Local Notation r := RtoC.
  (** 32-49 [Y] *)
  Definition Y : result C :=
    let F_c := (r (4 / 3) * coef "C1" + coef "C2" + r 6 * coef "C3" + r 60 * coef "C5")%C in
    let F_b := (r 7 * coef "C3" + r (4 / 3) * coef "C4" + r 76 * coef "C5" + r (64 / 3) * coef "C6")%C in
    let F_u := (coef "C3" + r (4 / 3) * coef "C4" + r 16 * coef "C5" + r (64 / 3) * coef "C6")%C in
    let F_4 := (r (4 / 3) * coef "C3" + r (64 / 9) * coef "C5" + r (64 / 27) * coef "C6")%C in
    bind (loop_h q2 (mc_pole d) scale) (fun hc => bind (loop_h q2 (mb_pole d) scale) (fun hb => bind (loop_h q2 0 scale) (fun h0 =>
    Ok (hc * F_c - r (1 / 2) * hb * F_b - r (1 / 2) * h0 * F_u + F_4)%C))).
  (** 52-56 [Yu] *)
  Definition Yu : result C :=
    bind (loop_h q2 (mc_pole d) scale) (fun hc => bind (loop_h q2 0 scale) (fun h0 => Ok ((r (4 / 3) * coef "C1" + coef "C2") * (hc - h0))%C)).
  (** 127-135 [F_89] *)
  Definition F_89 (Ls sh : R) : R :=
    104 / 9 - 32 / 27 * PI ^ 2 + (1184 / 27 - 40 / 9 * PI ^ 2) * sh + (14212 / 135 - 32 / 3 * PI ^ 2) * sh ^ 2 + (193444 / 945 - 560 / 27 * PI ^ 2) * sh ^ 3
    + 16 / 9 * Ls * (1 + sh + sh ^ 2 + sh ^ 3).
  (** 207-213 [SeidelC], for q2 > 0 *)
  Definition SeidelC (mu : R) : C := (r (- (16 / 81) * ln (q2 / mu ^ 2) + 428 / 243 - 64 / 27 * zeta3 d) + r (16 / 81 * PI) * Ci)%C.
  (** 215-225 [Fu_17] ... [Fu_29] *)
  Definition Fu_17 : C := (- A_seidel d)%C.
  Definition Fu_27 : C := (- (r (- 6) * A_seidel d))%C.
  Definition Fu_19 : C := (- (B_seidel d + r 4 * SeidelC scale))%C.
  Definition Fu_29 : C := (- (r (- 6) * B_seidel d + r 3 * SeidelC scale))%C.
  (** 228-247 [delta_C7]; the charm mass enters only in F_17, F_27 *)
  Definition delta_C7 : C :=
    let sh := q2 / mb_pole d ^ 2 in
    let Lmu := ln (scale / mb_pole d) in
    let delta_tmp := (coef "C1" * F17 d + coef "C2" * F27 d)%C in
    let delta_t := (coef "C8eff" * F_87 Lmu sh + delta_tmp)%C in
    let delta_u := (delta_tmp + coef "C1" * Fu_17 + coef "C2" * Fu_27)%C in
    (r (- alpha_s d / (4 * PI)) * (delta_t - xi_ut d * delta_u))%C.
  (** 249-269 [delta_C9], the logarithm of zero raises ValueError *)
  Definition delta_C9 : result C :=
    let sh := q2 / mb_pole d ^ 2 in
    if Req_EM_T sh 0 then Err ValueError else
    let Ls := ln sh in
    let delta_tmp := (coef "C1" * F19 d + coef "C2" * F29 d)%C in
    let delta_t := (coef "C8eff" * r (F_89 Ls sh) + delta_tmp)%C in
    let delta_u := (delta_tmp + coef "C1" * Fu_19 + coef "C2" * Fu_29)%C in
    Ok (r (- alpha_s d / (4 * PI)) * (delta_t - xi_ut d * delta_u))%C.
  (** wilsoncoefficients.py 126-152 [get_wceff]; mb is the running mass *)
  Definition get_wceff (mb : R) (lep : string) : result (wckey -> C) :=
    bind Y (fun y => bind Yu (fun yu => bind delta_C9 (fun d9 =>
    let s (n : string) := wc (n ++ "_" ++ qq ++ lep ++ lep) in
    Ok (fun k => match k with
      | W7 => coef "C7eff" + delta_C7
      | W7p => coef "C7effp"
      | Wv => s "C9" + d9 + (y + xi_ut d * yu)
      | Wvp => s "C9p"
      | Wa => s "C10"
      | Wap => s "C10p"
      | Ws => r mb * s "CS"
      | Wsp => r mb * s "CSp"
      | Wp => r mb * s "CP"
      | Wpp => r mb * s "CPp"
      | Wt => r 0
      | Wtp => r 0
      end)%C))).
End Matrixelements.

(** wilsoncoefficients.py 198-206 [get_CVLSM], for m_Z, scale > 0 *)
Definition get_CVLSM (alpha_e m_Z scale : R) (nf : nat) : R := if Nat.leb 4 nf then 1 + alpha_e / PI * ln (m_Z / scale) else sqrt (10232 / 10000).
(** 234-250 [get_wceff_fccc_std]: VL, VR, SR, SL, T (the same sector and coefficients as for get_wceff_fccc in Angular_Model.v) *)
Definition get_wceff_fccc_std (c_sm CVL CVR CSR CSL CT : C) : C * C * C * C * C := ((c_sm + CVL)%C, CVR, CSR, CSL, CT).
