(** * Model of the hadronic form factors
      flavio/physics/bdecays/formfactors/{common,hqet}.py, b_p/{bcl,bcl_lmvd,bsz,cln,isgurwise,btop}.py,
      b_v/{bsz,sse,cln,clnexp,isgurwise,btov}.py, lambdab_12/{sse,lambdab}.py,
      flavio/physics/ddecays/formfactors/{__init__,bcl,bsz}.py, flavio/physics/kdecays/formfactors.py

    Simplifications: floats are real numbers; math.sqrt of a negative number raises ValueError, division by zero
    ZeroDivisionError; the parameter dictionary is a dictionary from names to real numbers; lru_cache and
    citations.register are left out (no effect on results); the number of parameters [n] is a natural number below 10
    where it is written into parameter names. *)
From Coq Require Import Reals Lra.
From Verif Require Import Base.
Local Open Scope R_scope.

Definition psqrt (x : R) : result R := if Rlt_dec x 0 then Err ValueError else Ok (sqrt x).
Definition pdiv (x y : R) : result R := if Req_EM_T y 0 then Err ZeroDivisionError else Ok (x / y).
Notation params := (od string R).
(** par[name] *)
Definition look (par : params) (name : string) : result R :=
  match od_get name par with Some v => Ok v | None => Err KeyError end.
(** str(j) for one digit *)
Definition dig (j : nat) : string := String (Ascii.ascii_of_nat (48 + j)) EmptyString.

(** optional argument t0: None, 'tm' or a number *)
Inductive t0arg := T0none | T0tm | T0val (t : R).

(** formfactors/common.py:6-33 *)
Definition z (mB mM q2 : R) (t0 : t0arg) : result R :=
  let tm := (mB - mM) ^ 2 in
  let tp := (mB + mM) ^ 2 in
  do t <- (match t0 with
           | T0none => do x <- pdiv tm tp; do s <- psqrt (1 - x); Ok (tp * (1 - s))
           | T0tm => Ok tm
           | T0val t => Ok t end);
  do sq2 <- psqrt (tp - q2);
  do st0 <- psqrt (tp - t);
  pdiv (sq2 - st0) (sq2 + st0).

(** sum of (a * zs)[:order_z+1]: a, zs have four entries *)
Fixpoint rsum_ (l : list R) : R := match l with [] => 0 | x :: xs => x + rsum_ xs end.
Fixpoint zipmul (a b : list R) : list R := match a, b with x :: xs, y :: ys => x * y :: zipmul xs ys | _, _ => [] end.
(** formfactors/common.py:36-56; n, order_z non-negative integers *)
Definition w_minus_1_pow_n (z : R) (n order_z : nat) : result R :=
  let zs := [1; z; z ^ 2; z ^ 3] in
  if Nat.ltb 3 order_z then Err ValueError else
  if Nat.ltb 3 n then Err ValueError else
  match n with
  | O => Ok 1
  | 1%nat => Ok (rsum_ (firstn (order_z + 1) (zipmul [0; 8; 16; 24] zs)))
  | 2%nat => Ok (rsum_ (firstn (order_z + 1) (zipmul [0; 0; 64; 256] zs)))
  | _ => Ok (rsum_ (firstn (order_z + 1) (zipmul [0; 0; 0; 512] zs)))
  end.

(** numpy.dot of two one-dimensional arrays *)
Definition npdot (a b : list R) : result R :=
  if Nat.eqb (length a) (length b) then Ok (rsum_ (zipmul a b)) else Err ValueError.

(** ** B -> P *)
(** b_p/bcl.py:7-10, bcl_lmvd.py:5-8, bsz.py:8-11; a missing mass (None) does not occur *)
Definition poleP (mres q2 : R) : result R :=
  if Req_EM_T mres 0 then Ok 1 else do x <- pdiv q2 (mres ^ 2); pdiv 1 (1 - x).

(** b_p/bcl.py:21-25: sum over k < n of a_k (Z^k - (-1)^(k-n) k/n Z^n) *)
Definition sum_fplusT (a : list R) (Z : R) : R :=
  let n := length a in
  rsum_ (zipmul a (map (fun k => Z ^ k - (-1) ^ (n - k) * INR k / INR n * Z ^ n) (seq 0 n))).
Definition param_fplusT (mB mP : R) (a : list R) (q2 : R) (t0 : t0arg) : result R :=
  do zq <- z mB mP q2 t0; Ok (sum_fplusT a zq).
(** b_p/bcl.py:27-30 *)
Definition sum_f0 (a : list R) (Z : R) : R := rsum_ (zipmul a (map (fun k => Z ^ k) (seq 0 (length a)))).
Definition param_f0 (mB mP : R) (a : list R) (q2 : R) (t0 : t0arg) : result R :=
  do zq <- z mB mP q2 t0; Ok (sum_f0 a zq).

Open Scope string_scope.
(** process_dict of b_p/bcl.py:15-19 and b_p/bsz.py:17-21 (equal) *)
Definition bcl_process (p : string) : option (string * string) :=
  if String.eqb p "B->K" then Some ("B0", "K0") else if String.eqb p "Bs->K" then Some ("Bs", "K+") else
  if String.eqb p "B->D" then Some ("B+", "D0") else if String.eqb p "B->pi" then Some ("B+", "pi0") else None.
(** process_dict of ddecays/formfactors/bcl.py:14-16 *)
Definition d_process (p : string) : option (string * string) :=
  if String.eqb p "D->K" then Some ("D0", "K+") else if String.eqb p "D->pi" then Some ("D0", "pi+") else None.
Definition lookd {A} (d : string -> option A) (k : string) : result A := match d k with Some v => Ok v | None => Err KeyError end.

Definition coeffs (par : params) (prefix i : string) (js : list nat) : result (list R) :=
  mapM (fun j => look par (prefix ++ " a" ++ dig j ++ "_" ++ i)) js.

(** b_p/bcl.py:32-68 *)
Definition bcl_ff (process : string) (q2 : R) (par : params) (n : nat) (t0 : t0arg) : result (od string R) :=
  do pd <- lookd bcl_process process;
  do mpl <- look par (process ++ " BCL m+");
  do m0 <- look par (process ++ " BCL m0");
  do mB <- look par ("m_" ++ fst pd);
  do mP <- look par ("m_" ++ snd pd);
  let chL := match od_get (process ++ " BCL chL") par with Some v => v | None => 1%R end in
  do ap <- coeffs par (process ++ " BCL") "f+" (seq 0 n);
  do aT <- coeffs par (process ++ " BCL") "fT" (seq 0 n);
  do a0 <- (if match t0 with T0val t => if Req_EM_T t 0 then true else false | _ => false end
            then do r <- coeffs par (process ++ " BCL") "f0" (seq 1 (n - 1)); Ok (firstn 1 ap ++ r)%list
            else
              do a <- coeffs par (process ++ " BCL") "f0" (seq 0 (n - 1));
              do p1 <- poleP mpl 0; do s1 <- param_fplusT mB mP ap 0 t0;
              do p2 <- poleP m0 0; do s2 <- param_f0 mB mP a 0 t0;
              do z0 <- z mB mP 0 t0;
              do an <- pdiv (p2 * s2 - p1 * s1) (z0 ^ (n - 1));
              Ok (a ++ [an])%list);
  do q1 <- poleP mpl q2; do f1 <- param_fplusT mB mP ap q2 t0;
  do f2 <- param_fplusT mB mP aT q2 t0;
  do q3 <- poleP m0 q2; do f3 <- param_f0 mB mP a0 q2 t0;
  Ok [("f+", chL * q1 * f1); ("fT", chL * q1 * f2); ("f0", chL * q3 * f3)]%R.

(** b_p/isgurwise.py:8-14 *)
Definition isgur_wise (process : string) (ff : od string R) (par : params) : result (od string R) :=
  do pd <- lookd bcl_process process;
  do _ <- look par ("m_" ++ fst pd); do _ <- look par ("m_" ++ snd pd);
  do aT <- look par (process ++ " IW a_T");
  do fp <- look ff "f+";
  Ok (od_set "fT" (fp * (1 + aT))%R ff).

(** b_p/bcl.py:70-93 *)
Definition bcl_ff_isgurwise (process : string) (q2 : R) (par : params) (n : nat) (t0 : t0arg) : result (od string R) :=
  do pd <- lookd bcl_process process;
  do mpl <- look par (process ++ " BCL m+");
  do m0 <- look par (process ++ " BCL m0");
  do mB <- look par ("m_" ++ fst pd);
  do mP <- look par ("m_" ++ snd pd);
  do ap <- coeffs par (process ++ " BCL") "f+" (seq 0 n);
  do a <- coeffs par (process ++ " BCL") "f0" (seq 0 (n - 1));
  do p1 <- poleP mpl 0; do s1 <- param_fplusT mB mP ap 0 t0;
  do p2 <- poleP m0 0; do s2 <- param_f0 mB mP a 0 t0;
  do z0 <- z mB mP 0 t0;
  do an <- pdiv (p1 * s1 - p2 * s2) (z0 ^ (n - 1));
  do q1 <- poleP mpl q2; do f1 <- param_fplusT mB mP ap q2 t0;
  do q3 <- poleP m0 q2; do f3 <- param_f0 mB mP (a ++ [an])%list q2 t0;
  isgur_wise process [("f+", q1 * f1); ("f0", q3 * f3)]%R par.

(** ddecays/formfactors/bcl.py:19-46 *)
Definition d_bcl_ff (process : string) (q2 : R) (par : params) (n : nat) (t0 : t0arg) : result (od string R) :=
  do pd <- lookd d_process process;
  do mpl <- look par (process ++ " BCL m+");
  do m0 <- look par (process ++ " BCL m0");
  do mB <- look par ("m_" ++ fst pd);
  do mP <- look par ("m_" ++ snd pd);
  do ap <- coeffs par (process ++ " BCL") "f+" (seq 0 n);
  do aT <- coeffs par (process ++ " BCL") "fT" (seq 0 n);
  do a <- coeffs par (process ++ " BCL") "f0" (seq 0 (n - 1));
  do p1 <- poleP mpl 0; do s1 <- param_fplusT mB mP ap 0 t0;
  do p2 <- poleP m0 0; do s2 <- param_f0 mB mP a 0 t0;
  do z0 <- z mB mP 0 t0;
  do an <- pdiv (p2 * s2 - p1 * s1) (z0 ^ (n - 1));
  do q1 <- poleP mpl q2; do f1 <- param_fplusT mB mP ap q2 t0;
  do f2 <- param_fplusT mB mP aT q2 t0;
  do q3 <- poleP m0 q2; do f3 <- param_f0 mB mP (a ++ [an])%list q2 t0;
  Ok [("f+", q1 * f1); ("fT", q1 * f2); ("f0", q3 * f3)]%R.

(** b_p/bcl_lmvd.py:17-24: b_0 (1 + sum over 1 <= k < n of b_k (Z^k - Z0^k - (-1)^(k-n) k/n (Z^n - Z0^n))) *)
Definition lmvd_fplusT (b : list R) (Z Z0 : R) : R :=
  let n := length b in
  (hd 0 b * (1 + rsum_ (zipmul (tl b) (map (fun k => Z ^ k - Z0 ^ k - (-1) ^ (n - k) * INR k / INR n * (Z ^ n - Z0 ^ n)) (seq 1 (n - 1))))))%R.
(** b_p/bcl_lmvd.py:26-32 *)
Definition lmvd_f0 (b : list R) (Z Z0 : R) : R :=
  (hd 0 b * (1 + rsum_ (zipmul (tl b) (map (fun k => Z ^ k - Z0 ^ k) (seq 1 (length b - 1))))))%R.
(** b_p/bcl_lmvd.py:34-56; process_dict has one entry *)
Definition lmvd_process (p : string) : option (string * string) := if String.eqb p "B->pi" then Some ("B+", "pi0") else None.
Definition lmvd_ff (process : string) (q2 : R) (par : params) (n : nat) (t0 : t0arg) : result (od string R) :=
  do pd <- lookd lmvd_process process;
  do mpl <- look par (process ++ " BCL LMVD m+");
  do m0 <- look par (process ++ " BCL LMVD m0");
  do mB <- look par (process ++ " BCL LMVD m_" ++ fst pd);
  do mP <- look par (process ++ " BCL LMVD m_" ++ snd pd);
  do bp0 <- look par (process ++ " BCL f_+(0)");
  do bp <- mapM (fun j => look par (process ++ " BCL b_+^" ++ dig j)) (seq 1 (n - 1));
  do bT0 <- look par (process ++ " BCL f_T(0)");
  do bT <- mapM (fun j => look par (process ++ " BCL b_T^" ++ dig j)) (seq 1 (n - 1));
  do zq <- z mB mP q2 t0; do z0 <- z mB mP 0 t0;
  do q1 <- poleP mpl q2;
  do b0 <- mapM (fun j => look par (process ++ " BCL b_0^" ++ dig j)) (seq 1 n);
  do q3 <- poleP m0 q2;
  Ok [("f+", q1 * lmvd_fplusT (bp0 :: bp) zq z0); ("fT", q1 * lmvd_fplusT (bT0 :: bT) zq z0); ("f0", q3 * lmvd_f0 (bp0 :: b0) zq z0)]%R.

(** b_p/bsz.py:24-28 and b_v/bsz.py:8-12 *)
Definition bsz_zs (mB mM q2 : R) (t0 : t0arg) : result (list R) :=
  do zq <- z mB mM q2 t0; do z0 <- z mB mM 0 t0; Ok [1; zq - z0; (zq - z0) ^ 2]%R.
(** b_p/bsz.py:31-55; with the process dictionary of D decays: ddecays/formfactors/bsz.py:12-37 *)
Definition bsz_ffP (pdict : string -> option (string * string)) (process : string) (q2 : R) (par : params) (n : nat) (t0 : t0arg) : result (od string R) :=
  do pd <- lookd pdict process;
  do mpl <- look par (process ++ " BCL m+");
  do m0 <- look par (process ++ " BCL m0");
  do mB <- look par ("m_" ++ fst pd);
  do mP <- look par ("m_" ++ snd pd);
  do ap <- coeffs par (process ++ " BSZ") "f+" (seq 0 n);
  do aT <- coeffs par (process ++ " BSZ") "fT" (seq 0 n);
  do a00 <- look par (process ++ " BSZ a0_f+");
  do a0 <- coeffs par (process ++ " BSZ") "f0" (seq 1 (n - 1));
  do q1 <- poleP mpl q2; do zs <- bsz_zs mB mP q2 t0;
  do f1 <- npdot ap (firstn n zs);
  do f2 <- npdot aT (firstn n zs);
  do q3 <- poleP m0 q2; do f3 <- npdot (a00 :: a0) (firstn n zs);
  Ok [("f+", q1 * f1); ("fT", q1 * f2); ("f0", q3 * f3)]%R.

(** ** HQET (hqet.py).  The functions CV1 ... CT3 of (w, zc) and the constants of [get_hqet_parameters] are arbitrary *)
Record hq := Hq { ash : R; epsc : R; epsb : R; zc : R; cfun : string -> R -> R -> R }.
(** hqet.py:27-39 *)
Definition xi_fun (z rho2 c xi3 : R) (order_z : nat) : result R :=
  do w1 <- w_minus_1_pow_n z 1 order_z; do w2 <- w_minus_1_pow_n z 2 order_z; do w3 <- w_minus_1_pow_n z 3 order_z;
  Ok (1 - rho2 * w1 + c * w2 + xi3 / 6 * w3)%R.
(** hqet.py:42-57: L_1 ... L_6 *)
Definition Lz (par : params) (w z : R) (order_z : nat) : result (nat -> R) :=
  do w1 <- w_minus_1_pow_n z 1 order_z; do w2 <- w_minus_1_pow_n z 2 order_z;
  do c0 <- look par "chi_2(1)"; do c1 <- look par "chi_2p(1)"; do c2 <- look par "chi_2pp(1)";
  do d1 <- look par "chi_3p(1)"; do d2 <- look par "chi_3pp(1)";
  do e0 <- look par "eta(1)"; do e1 <- look par "etap(1)"; do e2 <- look par "etapp(1)";
  let chi2 := (c0 + c1 * w1 + c2 / 2 * w2)%R in
  let chi3 := (d1 * w1 + d2 / 2 * w2)%R in
  let eta := (e0 + e1 * w1 + e2 / 2 * w2)%R in
  do l6 <- pdiv (-2 * (1 + eta)) (w + 1);
  Ok (fun i => match i with
    | 1%nat => -4 * (w - 1) * chi2 + 12 * chi3
    | 2%nat => -4 * chi3
    | 3%nat => 4 * chi2
    | 4%nat => 2 * eta - 1
    | 5%nat => -1
    | _ => l6 end)%R.
(** hqet.py:60-68 *)
Definition ell_i (i : nat) (par : params) (z : R) (order_z : nat) : result R :=
  do w1 <- w_minus_1_pow_n z 1 order_z;
  do l <- look par ("CLN l_" ++ dig i ++ "(1)"); do lp <- look par ("CLN lp_" ++ dig i ++ "(1)");
  Ok (l + w1 * lp)%R.
Definition ell (par : params) (z : R) (order_z : nat) : result (nat -> R) :=
  do l <- mapM (fun i => ell_i (i + 1) par z order_z) (seq 0 6);
  Ok (fun i => nth (i - 1) l 0%R).

(** b_p/cln.py:10-21 [h_to_f]; r > 0 *)
Definition h_to_f (mB mP hp hm hT q2 : R) : result (od string R) :=
  do r <- pdiv mP mB;
  do s <- psqrt r;
  do fp <- pdiv ((r + 1) * hp + (r - 1) * hm) (2 * s);
  do fm <- pdiv ((r - 1) * hp + (r + 1) * hm) (2 * s);
  do x <- pdiv (fm * q2) (mB ^ 2 - mP ^ 2);
  do t <- pdiv (r + 1) (2 * s);
  Ok [("f+", fp); ("f0", fp + x); ("fT", t * hT)]%R.
(** b_p/cln.py:24-62; process_dict: B -> D only *)
Definition cln_ffP (h : hq) (process : string) (q2 : R) (par : params) (order_z order_z_slp order_z_sslp : nat) : result (od string R) :=
  do pd <- lookd (fun p => if String.eqb p "B->D" then Some ("B0", "D+") else None) process;
  do mB <- look par ("m_" ++ fst pd);
  do mP <- look par ("m_" ++ snd pd);
  do w0 <- pdiv (mB ^ 2 + mP ^ 2 - q2) (2 * mB * mP);
  let w := Rmax w0 1 in
  let c f := cfun h f w (zc h) in
  do zz <- z mB mP q2 T0tm;
  do rho2 <- look par "CLN rho2_xi"; do cx <- look par "CLN c_xi"; do xi3 <- look par "CLN xi3";
  do xi <- xi_fun zz rho2 cx xi3 order_z;
  do L <- Lz par w zz order_z_slp;
  do l <- ell par zz order_z_sslp;
  let hp := (xi * (1 + ash h * (c "CV1" + (w + 1) / 2 * (c "CV2" + c "CV3")) + (epsc h + epsb h) * L 1%nat + epsc h ^ 2 * l 1%nat))%R in
  let hm := (xi * (ash h * (w + 1) / 2 * (c "CV2" - c "CV3") + (epsc h - epsb h) * L 4%nat + epsc h ^ 2 * l 4%nat))%R in
  let hT := (xi * (1 + ash h * (c "CT1" - c "CT2" + c "CT3") + (epsc h + epsb h) * (L 1%nat - L 4%nat) + epsc h ^ 2 * (l 1%nat - l 4%nat)))%R in
  h_to_f mB mP hp hm hT q2.

(** ** B -> V *)
Definition namesV : list string := ["A0"; "A1"; "A12"; "V"; "T1"; "T2"; "T23"].
(** b_v/bsz.py:14-17, b_v/sse.py:9-12: position of the resonance mass *)
Definition mresV (ff : string) : nat :=
  if String.eqb ff "A0" then 0%nat else if orb (String.eqb ff "V") (String.eqb ff "T1") then 1%nat else 2%nat.
Definition poleV (ff : string) (mres : list R) (q2 : R) : result R :=
  let m := nth (mresV ff) mres 0%R in do x <- pdiv q2 (m ^ 2); pdiv 1 (1 - x).
(** b_v/bsz.py:20-26 *)
Definition bszV_process (p : string) : option (string * string) :=
  if String.eqb p "B->K*" then Some ("B0", "K*0") else if String.eqb p "B->rho" then Some ("B0", "rho0") else
  if String.eqb p "B->omega" then Some ("B0", "omega") else if String.eqb p "Bs->phi" then Some ("Bs", "phi") else
  if String.eqb p "Bs->K*" then Some ("Bs", "K*0") else if String.eqb p "B->D*" then Some ("B0", "D*0") else None.
(** b_v/bsz.py:29-58: the result and the parameter dictionary, which the function changes in place; an exception leaves
    it in the state reached *)
Definition bsz_ffV (process : string) (q2 : R) (par : params) (n : nat) : result (od string R) * params :=
  match (do pd <- lookd bszV_process process;
         do m0 <- look par (process ++ " BCL m0"); do m1 <- look par (process ++ " BCL m1-"); do m2 <- look par (process ++ " BCL m1+");
         do mB <- look par ("m_" ++ fst pd); do mV <- look par ("m_" ++ snd pd);
         do a0 <- look par (process ++ " BSZ a0_A0");
         do k <- pdiv (8 * mB * mV) (mB ^ 2 - mV ^ 2);
         do a12 <- pdiv a0 k;
         Ok ([m0; m1; m2], mB, mV, a12)) with
  | Err e => (Err e, par)
  | Ok (mres, mB, mV, a12) =>
    let par1 := od_set (process ++ " BSZ a0_A12") a12 par in
    match look par1 (process ++ " BSZ a0_T1") with
    | Err e => (Err e, par1)
    | Ok aT1 =>
      let par2 := od_set (process ++ " BSZ a0_T2") aT1 par1 in
      (mapM (fun i =>
         do a <- coeffs par2 (process ++ " BSZ") i (seq 0 n);
         do p <- poleV i mres q2; do zs <- bsz_zs mB mV q2 T0none;
         do s <- npdot a (firstn n zs);
         Ok (i, (p * s)%R)) namesV, par2)
    end
  end.

(** b_v/sse.py:20-43; i.lower() *)
Definition lowerV (i : string) : string :=
  if String.eqb i "A0" then "a0" else if String.eqb i "A1" then "a1" else if String.eqb i "A12" then "a12" else
  if String.eqb i "V" then "v" else if String.eqb i "T1" then "t1" else if String.eqb i "T2" then "t2" else "t23".
Definition sseV_process (p : string) : option (string * string * list R) :=
  if String.eqb p "B->K*" then Some ("B0", "K*0", [5366 / 1000; 5414 / 1000; 5829 / 1000])%R else
  if String.eqb p "Bs->phi" then Some ("Bs", "phi", [5366 / 1000; 5414 / 1000; 5829 / 1000])%R else
  if String.eqb p "Bs->K*" then Some ("Bs", "K*0", [5279 / 1000; 5324 / 1000; 5716 / 1000])%R else None.
Definition sse_ffV (process : string) (q2 : R) (par : params) (n : nat) : result (od string R) :=
  do pd <- lookd sseV_process process;
  do mB <- look par ("m_" ++ fst (fst pd)); do mV <- look par ("m_" ++ snd (fst pd));
  mapM (fun i =>
    do a <- mapM (fun j => look par (process ++ " SSE " ++ lowerV i ++ "_a" ++ dig j)) (seq 0 n);
    do p <- poleV i (snd pd) q2; do zq <- z mB mV q2 (T0val 12);
    do s <- npdot a (firstn n [1; zq; zq ^ 2]%R);
    Ok (i, (p * s)%R)) namesV.

(** b_v/cln.py:13-47 [h_to_A]; h: form factors of HQET by name *)
Definition lambda_K (a b c : R) : R := (a ^ 2 + b ^ 2 + c ^ 2 - 2 * (a * b + a * c + b * c))%R.
Definition h_to_A (mB mV : R) (h : string -> R) (q2 : R) : result (od string R) :=
  do s <- psqrt (mB * mV);
  do pre <- pdiv (1 / 2) s;
  let fV := (pre * (mB + mV) * h "V")%R in
  do A1 <- pdiv (pre * ((mB + mV) ^ 2 - q2) * h "A1") (mB + mV);
  do rA <- pdiv mV mB;
  let A2 := (pre * (mB + mV) * (h "A3" + rA * h "A2"))%R in
  do x1 <- pdiv ((mB + mV) ^ 2 - q2) (2 * mV);
  do x2 <- pdiv (mB ^ 2 - mV ^ 2 + q2) (2 * mB);
  do x3 <- pdiv (mB ^ 2 - mV ^ 2 - q2) (2 * mV);
  let A0 := (pre * (x1 * h "A1" - x2 * h "A2" - x3 * h "A3"))%R in
  let T1 := (pre * ((mB + mV) * h "T1" - (mB - mV) * h "T2"))%R in
  do y1 <- pdiv ((mB + mV) ^ 2 - q2) (mB + mV);
  do y2 <- pdiv ((mB - mV) ^ 2 - q2) (mB - mV);
  let T2 := (pre * (y1 * h "T1" - y2 * h "T2"))%R in
  do y3 <- pdiv (mB ^ 2 - mV ^ 2) mB;
  let T3 := (pre * ((mB - mV) * h "T1" - (mB + mV) * h "T2" + y3 * h "T3"))%R in
  do A12 <- pdiv (A1 * (mB + mV) ^ 2 * (mB ^ 2 - mV ^ 2 - q2) - A2 * (mB ^ 4 + (mV ^ 2 - q2) ^ 2 - 2 * mB ^ 2 * (mV ^ 2 + q2)))
                 (16 * mB * mV ^ 2 * (mB + mV));
  do T23 <- pdiv ((mB ^ 2 - mV ^ 2) * (mB ^ 2 + 3 * mV ^ 2 - q2) * T2 - lambda_K (mB ^ 2) (mV ^ 2) q2 * T3)
                 (8 * mB * (mB - mV) * mV ^ 2);
  Ok [("V", fV); ("A1", A1); ("A0", A0); ("T1", T1); ("T2", T2); ("A12", A12); ("T23", T23)].
(** b_v/cln.py:49-106 *)
Definition cln_ffV (h : hq) (process : string) (q2 : R) (par : params) (order_z order_z_slp order_z_sslp : nat) : result (od string R) :=
  do pd <- lookd (fun p => if String.eqb p "B->D*" then Some ("B0", "D*+") else None) process;
  do mB <- look par ("m_" ++ fst pd);
  do mV <- look par ("m_" ++ snd pd);
  do w0 <- pdiv (mB ^ 2 + mV ^ 2 - q2) (2 * mB * mV);
  let w := Rmax w0 1 in
  let c f := cfun h f w (zc h) in
  do zz <- z mB mV q2 T0tm;
  do rho2 <- look par "CLN rho2_xi"; do cx <- look par "CLN c_xi"; do xi3 <- look par "CLN xi3";
  do xi <- xi_fun zz rho2 cx xi3 order_z;
  do L <- Lz par w zz order_z_slp;
  do l <- ell par zz order_z_sslp;
  do v <- pdiv (w - 1) (w + 1);
  let a := ash h in let ec := epsc h in let eb := epsb h in
  h_to_A mB mV (fun i =>
    if String.eqb i "V" then xi * (1 + a * c "CV1" + ec * (L 2%nat - L 5%nat) + eb * (L 1%nat - L 4%nat) + ec ^ 2 * (l 2%nat - l 5%nat))
    else if String.eqb i "A1" then xi * (1 + a * c "CA1" + ec * (L 2%nat - L 5%nat * v) + eb * (L 1%nat - L 4%nat * v) + ec ^ 2 * (l 2%nat - l 5%nat * v))
    else if String.eqb i "A2" then xi * (a * c "CA2" + ec * (L 3%nat + L 6%nat) + ec ^ 2 * (l 3%nat + l 6%nat))
    else if String.eqb i "A3" then xi * (1 + a * (c "CA1" + c "CA3") + ec * (L 2%nat - L 3%nat + L 6%nat - L 5%nat) + eb * (L 1%nat - L 4%nat) + ec ^ 2 * (l 2%nat - l 3%nat + l 6%nat - l 5%nat))
    else if String.eqb i "T1" then xi * (1 + a * (c "CT1" + (w - 1) / 2 * (c "CT2" - c "CT3")) + ec * L 2%nat + eb * L 1%nat + ec ^ 2 * l 2%nat)
    else if String.eqb i "T2" then xi * (a * (w + 1) / 2 * (c "CT2" + c "CT3") + ec * L 5%nat - eb * L 4%nat + ec ^ 2 * l 5%nat)
    else xi * (a * c "CT2" + ec * (L 6%nat - L 3%nat) + ec ^ 2 * (l 6%nat - l 3%nat)))%R q2.

(** b_v/isgurwise.py:9-32; mb, mq: pole masses.  cln.process_dict contains B -> D* only *)
Definition isgur_wiseV (mb mc : R) (process : string) (q2 : R) (ff : od string R) (par : params) : result (od string R) :=
  do pd <- lookd (fun p => if String.eqb p "B->D*" then Some ("B0", "D*+") else None) process;
  do mB <- look par ("m_" ++ fst pd);
  do mV <- look par ("m_" ++ snd pd);
  do a1 <- look par (process ++ " IW a_T1"); do a2 <- look par (process ++ " IW a_T2"); do a23 <- look par (process ++ " IW a_T23");
  do fV <- look ff "V"; do fA1 <- look ff "A1"; do fA12 <- look ff "A12"; do fA0 <- look ff "A0";
  do x1 <- pdiv (mb + mc) (mB + mV);
  do x2 <- pdiv (mb - mc) (mB - mV);
  let ff1 := od_set "T1" (x1 * fV * (1 + a1))%R ff in
  let ff2 := od_set "T2" (x2 * fA1 * (1 + a2))%R ff1 in
  do t <- (if Req_EM_T q2 0 then pdiv (4 * fA12 * (mb - mc) * (mB ^ 2 + mV ^ 2)) ((mB - mV) ^ 2 * (mB + mV))
           else do x <- pdiv ((mb - mc) * (((mB - mV) ^ 2 - q2) * ((mB + mV) ^ 2 - q2) * fA0 + 8 * mB * mV * (- mB ^ 2 + mV ^ 2) * fA12)) (4 * mB * (mV - mB) * mV * q2);
                Ok (x * (1 + a23))%R);
  Ok (od_set "T23" t ff2).
(** b_v/clnexp.py:10-47 *)
Definition clnexp_ff (mb mc : R) (process : string) (q2 : R) (par : params) : result (od string R) :=
  do pd <- lookd (fun p => if String.eqb p "B->D*" then Some ("B0", "D*0") else None) process;
  do mB <- look par ("m_" ++ fst pd);
  do mV <- look par ("m_" ++ snd pd);
  do w <- pdiv (mB ^ 2 + mV ^ 2 - q2) (2 * mB * mV);
  do sw <- psqrt (w + 1);
  do zz <- pdiv (sw - sqrt 2) (sw + sqrt 2);
  do sm <- psqrt (mB * mV);
  do RV <- pdiv (2 * sm) (mB + mV);
  do hA11 <- look par (process ++ " CLN h_A1(1)"); do R11 <- look par (process ++ " CLN R_1(1)");
  do R21 <- look par (process ++ " CLN R_2(1)"); do rho2 <- look par (process ++ " CLN rho2");
  do w0 <- pdiv (mB ^ 2 + mV ^ 2) (2 * mB * mV);
  let R20 := (R21 + 11 / 100 * (w0 - 1) - 6 / 100 * (w0 - 1) ^ 2)%R in
  do R00 <- pdiv (mB + mV - mB * R20 + mV * R20) (2 * mV);
  let R01 := (R00 - (- (11 / 100) * (w0 - 1) + 1 / 100 * (w0 - 1) ^ 2))%R in
  let hA1 := (hA11 * (1 - 8 * rho2 * zz + (53 * rho2 - 15) * zz ^ 2 - (231 * rho2 - 91) * zz ^ 3))%R in
  let R1 := (R11 - 12 / 100 * (w - 1) + 5 / 100 * (w - 1) ^ 2)%R in
  let R2 := (R21 + 11 / 100 * (w - 1) - 6 / 100 * (w - 1) ^ 2)%R in
  let R0 := (R01 - 11 / 100 * (w - 1) + 1 / 100 * (w - 1) ^ 2)%R in
  let A1 := (hA1 * RV * (w + 1) / 2)%R in
  do x0 <- pdiv R0 RV; do x2 <- pdiv R2 RV; do x1 <- pdiv R1 RV;
  let A0 := (x0 * hA1)%R in let A2 := (x2 * hA1)%R in
  do A12 <- pdiv (A1 * (mB + mV) ^ 2 * (mB ^ 2 - mV ^ 2 - q2) - A2 * (mB ^ 4 + (mV ^ 2 - q2) ^ 2 - 2 * mB ^ 2 * (mV ^ 2 + q2)))
                 (16 * mB * mV ^ 2 * (mB + mV));
  isgur_wiseV mb mc process q2 [("A1", A1); ("A0", A0); ("A12", A12); ("V", x1 * hA1)]%R par.

(** ** Lambda_b -> Lambda: lambdab_12/sse.py:11-58 *)
Definition namesL : list string := ["fA0"; "fAperp"; "fAt"; "fT0"; "fT50"; "fT5perp"; "fTperp"; "fV0"; "fVperp"; "fVt"].
Definition mresL (ff : string) : R :=
  (if orb (orb (String.eqb ff "fV0") (String.eqb ff "fVperp")) (orb (String.eqb ff "fT0") (String.eqb ff "fTperp")) then 5416 / 1000
   else if String.eqb ff "fVt" then 5711 / 1000 else if String.eqb ff "fAt" then 5367 / 1000 else 575 / 100)%R.
Definition sse_ffL (process : string) (q2 : R) (par : params) (n : nat) : result (od string R) * params :=
  match (do pd <- lookd (fun p => if String.eqb p "Lambdab->Lambda" then Some ("Lambda", "K+") else None) process;
         do mX <- look par ("m_" ++ fst pd); do mP <- look par ("m_" ++ snd pd);
         do a <- look par (process ++ " SSE a0_fA0");
         Ok (mX, mP, a)) with
  | Err e => (Err e, par)
  | Ok (mX, mP, aA) =>
    let par1 := od_set (process ++ " SSE a0_fAperp") aA par in
    match look par1 (process ++ " SSE a0_fT50") with
    | Err e => (Err e, par1)
    | Ok aT =>
      let par2 := od_set (process ++ " SSE a0_fT5perp") aT par1 in
      (mapM (fun i =>
         do a <- coeffs par2 (process ++ " SSE") i (seq 0 n);
         do x <- pdiv q2 (mresL i ^ 2); do p <- pdiv 1 (1 - x);
         do mLb <- look par2 "m_Lambdab"; do mB <- look par2 "m_B+";
         do zq <- z mB mP q2 (T0val ((mLb - mX) ^ 2)%R);
         do s <- npdot a (firstn n [1; zq; zq ^ 2]%R);
         Ok (i, (p * s)%R)) namesL, par2)
    end
  end.

(** ** K -> pi: kdecays/formfactors.py:8-53 *)
Definition kpi_ff (par : params) (q2 : R) : result (od string R) :=
  do mK <- look par "m_KL"; do mpi <- look par "m_pi+";
  let D0 := (mK ^ 2 - mpi ^ 2)%R in let t0 := ((mK - mpi) ^ 2)%R in
  do fp0 <- look par "K->pi f+(0)"; do lnC <- look par "K->pi ln(C)"; do Lp <- look par "K->pi Lambda_+";
  do D <- look par "K->pi D"; do dd <- look par "K->pi d"; do k <- look par "K->pi k";
  do H1 <- look par "K->pi H1"; do H2 <- look par "K->pi H2";
  do x <- pdiv q2 t0;
  let G := (x * D + (1 - x) * dd + x * (1 - x) * k)%R in
  let H := (H1 * x + H2 * x ^ 2)%R in
  do y0 <- pdiv q2 D0; do yp <- pdiv q2 (mpi ^ 2);
  do fT0 <- look par "K->pi fT(0)"; do sT <- look par "K->pi sT";
  do fT <- pdiv fT0 (1 - sT * q2);
  Ok [("f+", fp0 * exp (yp * (Lp + H))); ("f0", fp0 * exp (y0 * (lnC - G))); ("fT", fT)]%R.

(** ** registered implementations *)
(** b_p/btop.py:5-76, ddecays/formfactors/__init__.py:9-37, kdecays/formfactors.py:55-61: transition, name after the
    transition; the functions raise KeyError for names not registered here *)
Definition implP (h : hq) (process name : string) (par : params) (q2 : R) : result (od string R) :=
  if orb (orb (String.eqb process "B->K") (String.eqb process "B->pi")) (String.eqb process "B->D") then
    if String.eqb name "BSZ3" then bsz_ffP bcl_process process q2 par 3 T0none
    else if String.eqb name "BCL3" then bcl_ff process q2 par 3 T0none
    else if String.eqb name "BCL3 t0=0" then bcl_ff process q2 par 3 (T0val 0)
    else if String.eqb name "BCL4" then bcl_ff process q2 par 4 T0none
    else if String.eqb name "BCL4-LMVD" then lmvd_ff process q2 par 4 T0none
    else if String.eqb name "BCL3-IW" then bcl_ff_isgurwise process q2 par 3 T0none
    else if String.eqb name "BCL4-IW" then bcl_ff_isgurwise process q2 par 4 T0none
    else if String.eqb name "BCL3-IW-t0max" then bcl_ff_isgurwise process q2 par 3 T0tm
    else if String.eqb name "BCL4-IW-t0max" then bcl_ff_isgurwise process q2 par 4 T0tm
    else if andb (String.eqb name "CLN") (String.eqb process "B->D") then cln_ffP h process q2 par 3 2 1
    else Err KeyError
  else if orb (String.eqb process "D->pi") (String.eqb process "D->K") then
    if String.eqb name "BSZ2" then bsz_ffP d_process process q2 par 2 T0none
    else if String.eqb name "BCL2" then d_bcl_ff process q2 par 2 T0none
    else if String.eqb name "BSZ3" then bsz_ffP d_process process q2 par 3 T0none
    else Err KeyError
  else if andb (String.eqb process "K->pi") (String.eqb name "dispersive + pole") then kpi_ff par q2
  else Err KeyError.
Definition registeredP : list (string * string) :=
  (flat_map (fun p => map (fun n => (p, n)) ["BSZ3"; "BCL3"; "BCL3 t0=0"; "BCL4"; "BCL4-LMVD"; "BCL3-IW"; "BCL4-IW"; "BCL3-IW-t0max"; "BCL4-IW-t0max"]) ["B->K"; "B->pi"; "B->D"]
   ++ [("B->D", "CLN")] ++ flat_map (fun p => map (fun n => (p, n)) ["BSZ2"; "BCL2"; "BSZ3"]) ["D->pi"; "D->K"] ++ [("K->pi", "dispersive + pole")])%list.
(** b_v/btov.py:5-46: result only *)
Definition implV (h : hq) (mb mc : R) (process name : string) (par : params) (q2 : R) : result (od string R) :=
  if memb process ["B->K*"; "B->rho"; "B->omega"; "Bs->phi"; "Bs->K*"; "B->D*"] then
    if String.eqb name "BSZ2" then fst (bsz_ffV process q2 par 2)
    else if String.eqb name "BSZ3" then fst (bsz_ffV process q2 par 3)
    else if String.eqb name "SSE" then sse_ffV process q2 par 2
    else if andb (String.eqb name "CLN") (String.eqb process "B->D*") then cln_ffV h process q2 par 3 2 1
    else if andb (String.eqb name "CLNexp-IW") (String.eqb process "B->D*") then clnexp_ff mb mc process q2 par
    else Err KeyError
  else Err KeyError.
Definition registeredV : list (string * string) :=
  (flat_map (fun p => map (fun n => (p, n)) ["BSZ2"; "BSZ3"; "SSE"]) ["B->K*"; "B->rho"; "B->omega"; "Bs->phi"; "Bs->K*"; "B->D*"]
   ++ [("B->D*", "CLN"); ("B->D*", "CLNexp-IW")])%list.
(** lambdab_12/lambdab.py:5-23 *)
Definition implL (process name : string) (par : params) (q2 : R) : result (od string R) * params :=
  if String.eqb process "Lambdab->Lambda" then
    if String.eqb name "SSE2" then sse_ffL process q2 par 2
    else if String.eqb name "SSE3" then sse_ffL process q2 par 2
    else (Err KeyError, par)
  else (Err KeyError, par).
