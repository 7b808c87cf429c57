(** * Model of Wilson-coefficient objects: flavio/physics/eft.py

    The class derives from [wilson.Wilson], a dependency that is not part of the repository: [wcxf.Basis], validation ([wc.validate()] in
    [Wilson.__init__]) and the running itself ([match_run]) are parameters of the model.  Coefficient values are an abstract type with a
    zero and Python truth values. *)
From Verif Require Import Base.
Local Open Scope string_scope.

(** 8-114 [sectors_flavio2wcxf] *)
Definition sectors_flavio2wcxf : od string string :=
  [
   ("bcenue", "cbenu"); ("bcenumu", "cbenu"); ("bcenutau", "cbenu"); ("bcmunue", "cbmunu"); ("bcmunumu", "cbmunu");
   ("bcmunutau", "cbmunu"); ("bctaunue", "cbtaunu"); ("bctaunumu", "cbtaunu"); ("bctaunutau", "cbtaunu"); ("bdbd", "dbdb");
   ("bdee", "db"); ("bdemu", "dbmue"); ("bdetau", "dbtaue"); ("bdmue", "dbemu"); ("bdmumu", "db"); ("bdmutau", "dbtaumu");
   ("bdnuenue", "dbnunu"); ("bdnuenumu", "dbnunu"); ("bdnuenutau", "dbnunu"); ("bdnumunue", "dbnunu"); ("bdnumunumu", "dbnunu");
   ("bdnumunutau", "dbnunu"); ("bdnutaunue", "dbnunu"); ("bdnutaunumu", "dbnunu"); ("bdnutaunutau", "dbnunu");
   ("bdtaue", "dbetau"); ("bdtaumu", "dbmutau"); ("bdtautau", "db"); ("bsbs", "sbsb"); ("bsee", "sb"); ("bsemu", "sbmue");
   ("bsetau", "sbtaue"); ("bsmue", "sbemu"); ("bsmumu", "sb"); ("bsmutau", "sbtaumu"); ("bsnuenue", "sbnunu");
   ("bsnuenumu", "sbnunu"); ("bsnuenutau", "sbnunu"); ("bsnumunue", "sbnunu"); ("bsnumunumu", "sbnunu");
   ("bsnumunutau", "sbnunu"); ("bsnutaunue", "sbnunu"); ("bsnutaunumu", "sbnunu"); ("bsnutaunutau", "sbnunu");
   ("bstaue", "sbetau"); ("bstaumu", "sbmutau"); ("bstautau", "sb"); ("buenue", "ubenu"); ("buenumu", "ubenu");
   ("buenutau", "ubenu"); ("bumunue", "ubmunu"); ("bumunumu", "ubmunu"); ("bumunutau", "ubmunu"); ("butaunue", "ubtaunu");
   ("butaunumu", "ubtaunu"); ("butaunutau", "ubtaunu"); ("dcenue", "cdenu"); ("dcenumu", "cdenu"); ("dcenutau", "cdenu");
   ("dcmunue", "cdmunu"); ("dcmunumu", "cdmunu"); ("dcmunutau", "cdmunu"); ("dctaunue", "cdtaunu"); ("dctaunumu", "cdtaunu");
   ("dctaunutau", "cdtaunu"); ("duenue", "udenu"); ("duenumu", "udenu"); ("duenutau", "udenu"); ("dumunue", "udmunu");
   ("dumunumu", "udmunu"); ("dumunutau", "udmunu"); ("dutaunue", "udtaunu"); ("dutaunumu", "udtaunu"); ("dutaunutau", "udtaunu");
   ("scenue", "csenu"); ("scenumu", "csenu"); ("scenutau", "csenu"); ("scmunue", "csmunu"); ("scmunumu", "csmunu");
   ("scmunutau", "csmunu"); ("sctaunue", "cstaunu"); ("sctaunumu", "cstaunu"); ("sctaunutau", "cstaunu"); ("sdnuenue", "sdnunu");
   ("sdnuenumu", "sdnunu"); ("sdnuenutau", "sdnunu"); ("sdnumunue", "sdnunu"); ("sdnumunumu", "sdnunu");
   ("sdnumunutau", "sdnunu"); ("sdnutaunue", "sdnunu"); ("sdnutaunumu", "sdnunu"); ("sdnutaunutau", "sdnunu"); ("sdee", "sd");
   ("sdmumu", "sd"); ("sdtautau", "sd"); ("sdsd", "sdsd"); ("ucuc", "cucu"); ("suenue", "usenu"); ("suenumu", "usenu");
   ("suenutau", "usenu"); ("sumunue", "usmunu"); ("sumunumu", "usmunu"); ("sumunutau", "usmunu"); ("sutaunue", "ustaunu");
   ("sutaunumu", "ustaunu"); ("sutaunutau", "ustaunu")].
(** [sectors_flavio2wcxf.get(sector, sector)], 208 and 233 *)
Definition translate (sector : string) : string := match od_get sector sectors_flavio2wcxf with Some s => s | None => sector end.

Section Eft.
  Context {V Sc : Type} (vzero : V) (truthy : V -> bool).
  (** wcxf.WC *)
  Record wcxf := WC { x_eft : string; x_basis : string; x_scale : Sc; x_values : od string V }.
  (** [wcxf.Basis\[eft, basis\].sectors]; None if there is no such basis (KeyError) *)
  Variable Basis : string -> string -> option (od string (list string)).
  (** [Wilson.__init__]: validation of the initial values *)
  Variable validate : wcxf -> result unit.
  (** [Wilson.match_run(scale, eft, basis, sectors)] of an object with given initial values; None is 'all' *)
  Variable match_run : wcxf -> Sc -> string -> string -> option string -> result wcxf.

  (** 136-145 [set_initial], 147-153 [set_initial_wcxf]: the new value of self.wc *)
  Definition set_initial (wc_dict : od string V) (scale : Sc) (eft basis : string) : result (option wcxf) :=
    let w := WC eft basis scale wc_dict in do _ <- validate w; Ok (Some w).
  Definition set_initial_wcxf (wc : wcxf) : result (option wcxf) := set_initial (x_values wc) (x_scale wc) (x_eft wc) (x_basis wc).
  (** 155-161 [get_initial_wcxf] *)
  Definition get_initial_wcxf (self : option wcxf) : result wcxf := match self with None => Err ValueError | Some w => Ok w end.
  (** 194-202: the argument nf_out *)
  Definition eft_of (nf_out : option Z) (eft : string) : result string :=
    match nf_out with
    | None => Ok eft
    | Some n => if Z.eqb n 5 then Ok "WET" else if Z.eqb n 4 then Ok "WET-4" else if Z.eqb n 3 then Ok "WET-3" else Err ValueError
    end.
  (** 181-212 [get_wcxf] *)
  Definition get_wcxf (self : option wcxf) (sector : string) (scale : Sc) (eft basis : string) (nf_out : option Z) : result wcxf :=
    do eft <- eft_of nf_out eft;
    let mr_sectors := if sector =? "all" then None else Some (translate sector) in
    match self with
    | None => Ok (WC eft basis scale [])
    | Some w => match_run w scale eft basis mr_sectors
    end.
  (** 214-242 [get_wc] *)
  Definition get_wc (self : option wcxf) (sector : string) (scale : Sc) (eft basis : string) (nf_out : option Z) : result (od string V) :=
    match Basis eft basis with
    | None => Err KeyError
    | Some wcxf_basis =>
      do coeffs <- (if sector =? "all" then Ok (concat (map snd wcxf_basis))
                    else match od_get (translate sector) wcxf_basis with Some c => Ok c | None => Err KeyError end);
      let wc_sm := od_of_list (map (fun k => (k, vzero)) coeffs) in
      match self with
      | None => Ok wc_sm
      | Some w =>
        if negb (existsb truthy (map snd (x_values w))) then Ok wc_sm
        else do wc_out <- get_wcxf self sector scale eft basis nf_out; Ok (od_update wc_sm (x_values wc_out))
      end
    end.
End Eft.
Arguments WC {V Sc}. Arguments wcxf : clear implicits.

(** ** 163-176 [from_wilson]: sharing of the cache and the options of the object that is passed

    A [wilson.Wilson] object refers to a dictionary of cached results and a dictionary of options; of the options only 'parameters' matters.
    Whether [set_option] changes the dictionary of options in place or makes a new one, and whether it empties the cache in place or replaces it, is
    decided in the dependency: both are parameters of the model. *)
Section Cache.
  Context {P K R : Type} `{Eqb P} `{Eqb K} (compute : P -> K -> R) (default : P) (opt_in_place cache_in_place : bool).
  Record heap := Heap { h_options : nat -> option P; h_caches : nat -> od K R; h_next : nat }.
  Record obj := Obj { o_options : nat; o_cache : nat }.
  Definition upd {A} (f : nat -> A) (n : nat) (a : A) (m : nat) : A := if Nat.eqb m n then a else f m.
  (** Wilson.get_option('parameters') *)
  Definition get_option (h : heap) (o : obj) : P := match h_options h (o_options o) with Some p => p | None => default end.
  (** Wilson.set_option('parameters', p) *)
  Definition set_option (h : heap) (o : obj) (p : P) : heap * obj :=
    let '(h1, o1) := if opt_in_place then (Heap (upd (h_options h) (o_options o) (Some p)) (h_caches h) (h_next h), o)
      else (Heap (upd (h_options h) (h_next h) (Some p)) (h_caches h) (S (h_next h)), Obj (h_next h) (o_cache o)) in
    if cache_in_place then (Heap (h_options h1) (upd (h_caches h1) (o_cache o1) []) (h_next h1), o1)
    else (Heap (h_options h1) (upd (h_caches h1) (h_next h1) []) (S (h_next h1)), Obj (o_options o1) (h_next h1)).
  (** Wilson.match_run with its cache *)
  Definition run (h : heap) (o : obj) (k : K) : heap * R :=
    match od_get k (h_caches h (o_cache o)) with
    | Some r => (h, r)
    | None => let r := compute (get_option h o) k in (Heap (h_options h) (upd (h_caches h) (o_cache o) (od_set k r (h_caches h (o_cache o)))) (h_next h), r)
    end.
  (** 163-176 for a [wilson.Wilson] object; [par] are the CKM parameters of [par_dict] *)
  Definition from_wilson (h : heap) (w : obj) (par : P) : heap * obj :=
    let fwc := Obj (o_options w) (o_cache w) in
    if eqb (get_option h fwc) par then (h, fwc) else set_option h fwc par.
  (** what a program does with a Wilson object [w]: predictions with given parameters (classes.py 755-806: [from_wilson], then coefficients at
      some scale) and its own calls of [w.match_run] and [w.set_option] *)
  Inductive op := Predict (par : P) (k : K) | Own (k : K) | Own_option (p : P).
  Definition step (s : heap * obj) (x : op) : (heap * obj) * option R :=
    let '(h, w) := s in
    match x with
    | Predict par k => let '(h1, f) := from_wilson h w par in let '(h2, r) := run h1 f k in ((h2, w), Some r)
    | Own k => let '(h1, r) := run h w k in ((h1, w), Some r)
    | Own_option p => let '(h1, w1) := set_option h w p in ((h1, w1), None)
    end.
  Fixpoint steps (s : heap * obj) (l : list op) : (heap * obj) * list (option R) :=
    match l with [] => (s, []) | x :: l => let '(s1, r) := step s x in let '(s2, rs) := steps s1 l in (s2, r :: rs) end.
  (** a new object: wilson.Wilson(...) *)
  Definition fresh_object : heap * obj := (Heap (fun _ => None) (fun _ => []) 2, Obj 0 1).
End Cache.
