(** * Model of the readers of measurement and parameter files
    (flavio/measurements.py 12-161, flavio/parameters.py 45-73 and 97-265)

    Floats are idealised as real numbers.  What the text or the dictionary of a single value means
    (flavio/_parse_errors.py, probability.dict2dist and convolve_distributions) is an oracle here; it is
    modelled in Parsing_Model, DistNames_Model and Dist_Model.  YAML parsing is not modelled: the
    functions start from the parsed objects.  A measurement is represented by the list of its
    additions (observables, distribution); what they amount to is modelled in Constraints_Model. *)
From Coq Require Import Reals.
From Verif Require Import Base.
Set Implicit Arguments.
Local Open Scope R_scope.

(** ** Correlation matrices, measurements.py 105-141 *)
(** Numpy matrices as lists of rows *)
Definition matrix := list (list R).
Definition entry (m : matrix) (i j : nat) : R := nth j (nth i m []) 0.
Definition build (n : nat) (f : nat -> nat -> R) : matrix := map (fun i => map (f i) (seq 0 n)) (seq 0 n).

(** The parsed value of 'correlation': a number, a text ([float] of it, if it is a number), a list, or
    something else (None, a dictionary).  The elements of the list are lists of numbers, or something
    without a length. *)
Inductive row := Row (l : list R) | NoRow.
Inductive corr := CNum (x : R) | CText (x : option R) | CList (rows : list row) | COther.

(** [np.allclose(a, b)]: |a - b| <= 1e-8 + 1e-5 |b| for all entries *)
Definition close (a b : R) : bool := if Rle_dec (Rabs (a - b)) (1e-8 + 1e-5 * Rabs b) then true else false.
Definition allclose (n : nat) (a b : nat -> nat -> R) : bool :=
  forallb (fun i => forallb (fun j => close (a i j) (b i j)) (seq 0 n)) (seq 0 n).

(** 126-137: one line of the list; [corr_out\[i\] = line] or [corr_out\[i, i:\] = line] *)
Definition fix_line (n i : nat) (r : row) : result (list R) :=
  match r with
  | NoRow => Err TypeError
  | Row line =>
    if Nat.eqb (length line) n then
      if Req_EM_T (nth i line 0) 1 then Ok line else Err ValueError
    else if Nat.eqb (length line) (n - i) then
      if Req_EM_T (nth 0 line 0) 1 then Ok (repeat 0 i ++ line) else Err ValueError
    else Err ValueError
  end.
Fixpoint fix_lines (n i : nat) (rows : list row) : result matrix :=
  match rows with
  | [] => Ok []
  | r :: rows => do l <- fix_line n i r; do ls <- fix_lines n (S i) rows; Ok (l :: ls)
  end.

Definition eye (i j : nat) : R := if Nat.eqb i j then 1 else 0.
(** 105-141 [_fix_correlation_matrix] *)
Definition fix_correlation_matrix (c : corr) (n : nat) : result matrix :=
  match c with
  | CNum x | CText (Some x) => Ok (build n (fun i j => eye i j + (1 - eye i j) * x))
  | CText None => Err ValueError
  | COther => Err TypeError
  | CList rows =>
    if negb (Nat.eqb (length rows) n) then Err ValueError
    else
      do m <- fix_lines n 0 rows;
      if allclose n (fun i j => entry m i j) (fun i j => entry m j i) then Ok m
      else Ok (build n (fun i j => entry m i j + entry m j i - (if Nat.eqb i j then entry m i i else 0)))
  end.

(** ** Covariance matrices *)
(** The dictionary returned by [errors_from_string] *)
Record errs : Type := mkErrs { e_central : R; e_sym : list R; e_asym : list (R * R) }.
(** measurements.py 71-76, 82-87, parameters.py 57-62: one total error *)
Definition squared_error (e : errs) : R :=
  fold_left (fun s ab => s + fst ab * snd ab) (e_asym e) (fold_left (fun s x => s + x ^ 2) (e_sym e) 0).
Definition total_error (e : errs) : R := sqrt (squared_error e).
(** [np.outer(errors, errors)*correlation] *)
Definition covariance_of (errors : list R) (c : matrix) : matrix :=
  build (length errors) (fun i j => nth i errors 0 * nth j errors 0 * entry c i j).

(** ** Reading measurements, measurements.py 12-91 *)
Section Load.
  Context {A C Text Dist : Type}.     (* values of arguments, distributions, texts, dictionaries describing distributions *)
  Inductive okey := KName (s : string) | KArgs (s : string) (args : list A).
  (** [Observable\[name\].arguments]; KeyError for unknown names *)
  Variable observable : string -> result (option (list string)).

  Inductive yvalue := YText (t : Text) | YDist (d : Dist).
  (** an element of the list form: [{name: .., arg1: .., value: ..}] *)
  Record yentry : Type := mkEntry { y_name : string; y_args : od string A; y_value : yvalue }.
  Inductive yobs := OStr (s : string) | ODict (name : string) (args : od string A).
  Inductive yvalues := VList (l : list yentry) | VDict (d : od string yvalue).
  (** One measurement in the file.  [MList]: something else than a dictionary (a list). *)
  Inductive mdata :=
  | MDict (attrs : od string string) (observables : option (list yobs)) (correlation : option corr) (values : option yvalues)
  | MList.

  Variable from_text : Text -> result C.          (* convolve_distributions(constraints_from_string(..)) *)
  Variable from_dict : Dist -> result C.          (* convolve_distributions(dict2dist(..)) *)
  Variable from_values : yvalues -> result C.     (* the same for the whole of 'values' *)
  Variable errors_from : yvalue -> result errs.   (* errors_from_string *)
  Variable mvn : list R -> matrix -> result C.    (* MultivariateNormalDistribution *)

  Definition addition : Type := list okey * C.

  (** 25-32, 38-45, 64-69: the tuple of the name and the values of the arguments *)
  Definition obs_tuple (name : string) (args : od string A) : result okey :=
    do names <- observable name;
    match names with
    | None => Err TypeError                       (* None is not iterable *)
    | Some names =>
      do vals <- mapM (fun a => match od_get a args with Some v => Ok v | None => Err KeyError end) names;
      Ok (KArgs name vals)
    end.
  Definition obs_key (o : yobs) : result okey :=
    match o with OStr s => Ok (KName s) | ODict name args => obs_tuple name args end.
  (** classes.py 165-199 [set_constraint] *)
  Definition value_dist (v : yvalue) : result C := match v with YText t => from_text t | YDist d => from_dict d end.

  (** 57-87: names, central values and total errors *)
  Definition correlated_entries (v : yvalues) : result (list (okey * errs)) :=
    match v with
    | VList l => mapM (fun y => do k <- obs_tuple (y_name y) (y_args y); do e <- errors_from (y_value y); Ok (k, e)) l
    | VDict d => mapM (fun kv => do e <- errors_from (snd kv); Ok (KName (fst kv), e)) d
    end.
  (** 88-90 *)
  Definition correlated (v : yvalues) (c : corr) : result addition :=
    do es <- correlated_entries v;
    do rho <- fix_correlation_matrix c (length es);
    do d <- mvn (map (fun e => e_central (snd e)) es) (covariance_of (map (fun e => total_error (snd e)) es) rho);
    Ok (map fst es, d).

  (** 15-90: the additions attempted in order; the first failing one raises *)
  Definition steps (m : mdata) : list (result addition) :=
    match m with
    | MList => [Err TypeError]                                       (* m_data['values'] *)
    | MDict _ (Some obs) _ values =>
      [do d <- match values with None => Err KeyError | Some v => from_values v end;
       do ks <- mapM obs_key obs;
       Ok (ks, d)]
    | MDict _ None None values =>
      match values with
      | None => [Err KeyError]
      | Some (VList l) => map (fun y => do k <- obs_tuple (y_name y) (y_args y); do d <- value_dist (y_value y); Ok ([k], d)) l
      | Some (VDict d) => map (fun kv => do d <- value_dist (snd kv); Ok ([KName (fst kv)], d)) d
      end
    | MDict _ None (Some c) values =>
      match values with
      | None => [Err KeyError]
      | Some v => [correlated v c]
      end
    end.
  Fixpoint run_steps (l : list (result addition)) : list addition * option exc :=
    match l with
    | [] => ([], None)
    | Err e :: _ => ([], Some e)
    | Ok a :: l => let '(done, e) := run_steps l in (a :: done, e)
    end.

  (** The registry [Measurement.instances]: attributes and additions of every measurement *)
  Definition registry := od string (od string string * list addition).
  Definition metadata : list string := ["inspire"; "hepdata"; "experiment"; "url"; "description"]%string.
  (** 17-19; [attrs] are the entries of the dictionary under these names *)
  Definition attrs_of (m : mdata) : od string string :=
    match m with MDict a _ _ _ => filter (fun kv => memb (fst kv) metadata) a | MList => [] end.

  (** 12-91 [_load]: state of the registry afterwards, and the names or the exception *)
  Fixpoint load_all (l : list (string * mdata)) (reg : registry) : registry * result unit :=
    match l with
    | [] => (reg, Ok tt)
    | (name, m) :: l =>
      let '(done, e) := run_steps (steps m) in
      let reg := od_set name (attrs_of m, done) reg in
      match e with None => load_all l reg | Some e => (reg, Err e) end
    end.
  Definition load_old (l : list (string * mdata)) (reg : registry) : registry * result (list string) :=
    let '(reg, r) := load_all l reg in (reg, do _ <- r; Ok (map fst l)).

  (** ** The new format, measurements.py 93-102 *)
  (** One measurement as written by [get_yaml_dict]: the name in 'arguments' (KeyError without it), the
      attributes in 'metadata' and the entries (see ConstraintsIO_Model); [n_items] is the same
      dictionary as seen by [_load], key by key. *)
  Record ndata : Type := mkN { n_name : option string; n_attrs : od string string; n_entries : list (result addition);
                               n_items : list (string * mdata) }.
  Inductive file := FOld (l : list (string * mdata)) | FNew (d : ndata) | FNewList (l : list ndata).
  Definition load_new1 (d : ndata) (reg : registry) : registry * result string :=
    match n_name d with
    | None => (reg, Err KeyError)
    | Some name =>
      let '(done, e) := run_steps (n_entries d) in
      (od_set name (n_attrs d, done) reg, match e with None => Ok name | Some e => Err e end)
    end.
  Fixpoint load_news (l : list ndata) (reg : registry) : registry * result (list string) :=
    match l with
    | [] => (reg, Ok [])
    | d :: l => match load_new1 d reg with
                | (reg, Err e) => (reg, Err e)
                | (reg, Ok n) => let '(reg, r) := load_news l reg in (reg, do ns <- r; Ok (n :: ns))
                end
    end.
  (** 93-102 [_load_new]; an old file has no key 'constraints' *)
  Definition load_new (f : file) (reg : registry) : registry * result (list string) :=
    match f with
    | FOld _ => (reg, Err KeyError)
    | FNew d => load_news [d] reg
    | FNewList l => load_news l reg
    end.
  (** 154-161 [read_file]: whatever exception occurs, the old format is tried afterwards *)
  Definition read_file (f : file) (reg : registry) : registry * result (list string) :=
    match load_new f reg with
    | (reg, Ok ns) => (reg, Ok ns)
    | (reg, Err _) =>
      match f with
      | FOld l => load_old l reg
      | FNew d => load_old (n_items d) reg
      | FNewList _ => (reg, Err AttributeError)           (* 'list' object has no attribute 'items' *)
      end
    end.
End Load.
Arguments okey : clear implicits.
Arguments yentry : clear implicits.
Arguments yobs : clear implicits.
Arguments yvalue : clear implicits.
Arguments yvalues : clear implicits.
Arguments mdata : clear implicits.
Arguments addition : clear implicits.
Arguments registry : clear implicits.
Arguments ndata : clear implicits.
Arguments file : clear implicits.
Arguments KName {A} s. Arguments KArgs {A} s args. Arguments YText {Text Dist} t. Arguments YDist {Text Dist} d.
Arguments OStr {A} s. Arguments ODict {A} name args. Arguments VList {A Text Dist} l. Arguments VDict {A Text Dist} d.
Arguments MDict {A Text Dist} attrs observables correlation values. Arguments MList {A Text Dist}.
Arguments FOld {A C Text Dist} l. Arguments FNew {A C Text Dist} d. Arguments FNewList {A C Text Dist} l.

(** ** Correlated parameters, parameters.py 45-73 *)
Section Correlated.
  Context {C : Type}.
  Variable exists_parameter : string -> bool.          (* Parameter[name] *)
  Variable positive : matrix -> bool.                  (* np.all(np.linalg.eigvals(covariance) > 0) *)
  Variable mvn : list R -> matrix -> result C.
  (** 64-72 *)
  Definition shrink (n : nat) (rho : matrix) : matrix := build n (fun i j => (entry rho i j - eye i j) * 0.99 + eye i j).
  Definition parameter_covariance (errors : list R) (rho : matrix) : result matrix :=
    let cov := covariance_of errors rho in
    if positive cov then Ok cov
    else let cov := covariance_of errors (shrink (length rho) rho) in
         if positive cov then Ok cov else Err AssertionError.
  (** 48-73: one group *)
  Definition parameter_group (l : list (string * result errs)) (c : corr) : result (list string * C) :=
    do es <- mapM (fun ke => if exists_parameter (fst ke) then do e <- snd ke; Ok (fst ke, e) else Err KeyError) l;
    do rho <- fix_correlation_matrix c (length es);
    do cov <- parameter_covariance (map (fun e => total_error (snd e)) es) rho;
    do d <- mvn (map (fun e => e_central (snd e)) es) cov;
    Ok (map fst es, d).
End Correlated.

(** ** Particle masses and lifetimes, parameters.py 97-265 *)
(** 121-172 [PDG_PARTICLES] *)
Definition pdg_particles : list (string * Z) :=
  [("Bs", 531); ("Bc", 541); ("Bs*", 533); ("B*+", 523); ("B*0", 513); ("B+", 521); ("B0", 511); ("Ds", 431);
   ("Ds*", 433); ("D+", 411); ("D0", 421); ("h", 25); ("J/psi", 443); ("KL", 130); ("KS", 310); ("K*+", 323);
   ("K*0", 313); ("K+", 321); ("K0", 311); ("Lambda", 3122); ("Lambda(1520)", 3124); ("Lambdab", 5122);
   ("Lambdac", 4122); ("omega", 223); ("D*0", 423); ("D*+", 413); ("W", 24); ("Z", 23); ("e", 11); ("eta", 221);
   ("f0", 9010221); ("mu", 13); ("phi", 333); ("pi+", 211); ("pi0", 111); ("psi(2S)", 100443); ("rho+", 213);
   ("rho0", 113); ("t", 6); ("tau", 15); ("u", 2); ("p", 2212); ("n", 2112); ("Upsilon(1S)", 553);
   ("Upsilon(2S)", 100553); ("Upsilon(3S)", 200553); ("eta_c(1S)", 441); ("chi_c0(1P)", 10441);
   ("chi_b0(1P)", 10551); ("chi_b0(2P)", 110551)]%string%Z.
(** [_pdg_particles_inv]: a later entry with the same number would win *)
Definition pdg_inv : od Z string := fold_left (fun d kv => od_set (snd kv) (fst kv) d) pdg_particles [].
(** A row of the PDG table (in MeV); widths may be missing.  Masses are assumed to be given. *)
Record particle : Type := mkP { p_id : Z; p_mass : R; p_mass_upper : R; p_mass_lower : R;
                                p_width : option R; p_width_upper : option R; p_width_lower : option R }.
Definition flavio_name (p : particle) : option string := od_get (p_id p) pdg_inv.
(** 214-224 [flavio_m] without tex and description *)
Definition flavio_m (name : string) (p : particle) : string * (R * R * R) :=
  (append "m_" name, (p_mass p * 1e-3, p_mass_upper p * 1e-3, p_mass_lower p * 1e-3))%string.
(** 227-239 [flavio_tau]; None if one of the three is missing or zero *)
Definition flavio_tau (name : string) (p : particle) : option (string * (R * R * R)) :=
  match p_width p, p_width_upper p, p_width_lower p with
  | Some w, Some u, Some l =>
    if Req_EM_T w 0 then None else if Req_EM_T u 0 then None else if Req_EM_T l 0 then None else
    let G := w * 1e-3 in
    Some (append "tau_" name, (1 / G, u * 1e-3 / G ^ 2, l * 1e-3 / G ^ 2))%string
  | _, _, _ => None
  end.
Inductive pdg_constraint := PNormal (c s : R) | PAsymmetric (c r l : R).
(** 258-264; the constructors raise ValueError for widths that are not positive *)
Definition pdg_dist (v : R * R * R) : result pdg_constraint :=
  let '(c, r, l) := v in
  if Req_EM_T r l then if Rle_dec r 0 then Err ValueError else Ok (PNormal c r)
  else if Rle_dec r 0 then Err ValueError else if Rle_dec l 0 then Err ValueError else Ok (PAsymmetric c r l).
(** 241-264 [read_pdg]: the constraints on the parameters afterwards, by name; [l] lists the particles
    of flavio in the (arbitrary) order in which the set is iterated *)
Definition pdg_data (p : particle) : list (string * (R * R * R)) :=
  match flavio_name p with
  | None => []
  | Some n => flavio_m n p :: match flavio_tau n p with Some d => [d] | None => [] end
  end.
Definition read_pdg (l : list particle) (cons : od string pdg_constraint) : result (od string pdg_constraint) :=
  fold_left (fun r d => do c <- r; do pd <- pdg_dist (snd d); Ok (od_set (fst d) pd (od_pop (fst d) c)))
            (flat_map pdg_data l) (Ok cons).
