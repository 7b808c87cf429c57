(** * Model of saving and loading constraints
    (flavio/classes.py 362-466, flavio/io/instanceio.py 66-88)

    A distribution object is a pair (identity, content); [ser] models
    [constraint.get_dict(distribution=True, iterate=True, arraytolist=True)] and [load]
    models [convolve_distributions(dict2dist(values))] on one saved entry.

    Simplifications: attribute values are strings; YAML text itself (yaml.dump/safe_load) is
    not modelled, only the dictionaries; a constructor requires exactly its named arguments. *)
From Verif Require Import Base Constraints_Model.
Set Implicit Arguments.

(** Parameter names: a string, or a tuple (observable name and arguments). *)
Inductive pkey (A : Type) : Type := KStr (s : string) | KTup (l : list A).
Arguments KStr {A} s.
Arguments KTup {A} l.
Definition pkey_eqb {A} `{Eqb A} (x y : pkey A) : bool :=
  match x, y with KStr s, KStr t => eqb s t | KTup l, KTup m => eqb l m | _, _ => false end.
Lemma pkey_eqb_spec {A} `{Eqb A} (x y : pkey A) : reflect (x = y) (pkey_eqb x y).
Proof.
  destruct x as [s|l], y as [t|m]; cbn; try (constructor; congruence).
  - destruct (eqb_spec s t); constructor; congruence.
  - destruct (eqb_spec l m); constructor; congruence.
Qed.
#[global] Instance Eqb_pkey {A} `{Eqb A} : Eqb (pkey A) := { eqb := pkey_eqb; eqb_spec := pkey_eqb_spec }.

(** The same in a saved file: a string or a list. *)
Inductive ykey (A : Type) : Type := YStr (s : string) | YList (l : list A).
Arguments YStr {A} s.
Arguments YList {A} l.

Section IO.
  Context {A C S Str : Type} `{Eqb A} `{Eqb C}.
  Notation P := (pkey A).
  Notation D := (nat * C)%type.

  (** classes.py 382: [list(p) if isinstance(p, tuple) else p] *)
  Definition enc (p : P) : ykey A := match p with KStr s => YStr s | KTup l => YList l end.
  (** classes.py 462: [tuple(p) if isinstance(p, list) else p] *)
  Definition dec (y : ykey A) : P := match y with YStr s => KStr s | YList l => KTup l end.

  Variable ser : C -> S.
  Variable load : S -> result C.
  Variable load_string : Str -> result C.

  (** One saved constraint: [{pname: \[...\], 'values': {...}}], or the short form
      [{parameter: constraint_string}] with a single entry. *)
  Inductive yentry : Type :=
  | YFull (pname : string) (ps : list (ykey A)) (values : S)
  | YShort (p : string) (v : Str).

  (** The saved object: a plain list, or a dictionary with optional 'arguments' and
      'metadata' and the list under 'constraints'. *)
  Inductive ydata : Type :=
  | YPlain (l : list yentry)
  | YDict (arguments : option (od string string)) (metadata : option (od string string))
          (constraints : list yentry).

  (** A class: the names of its constructor arguments and the attributes it initialises.
      Measurement: [["name"]] and description/inspire/experiment/url = '' (classes.py 825-830,
      54); ParameterConstraints: none (classes.py 473). *)
  Record class : Type := mkClass { c_args : list string; c_defaults : od string string }.
  Record inst : Type := mkInst { i_class : class; i_attrs : od string string; i_set : cset P D }.

  (** classes.py 380-385: the list of all constraints ever added *)
  Definition yaml_list (pname : string) (s : cset P D) : list yentry :=
    map (fun cp => YFull pname (map enc (snd cp)) (ser (snd (fst cp)))) (cons s).

  (** classes.py 386-397 [get_yaml_dict]; [self.__dict__\[arg\]] raises KeyError if the
      instance has no attribute of the name of a constructor argument. *)
  Definition private (k : string) : bool :=
    match k with String c _ => Ascii.eqb c (Ascii.ascii_of_nat 95) (* underscore *) | EmptyString => false end.
  Definition meta_of (i : inst) : od string string :=
    filter (fun kv => negb (private (fst kv)) && negb (eqb (snd kv) ""%string)
                      && negb (memb (fst kv) (c_args (i_class i)))) (i_attrs i).
  Definition get_yaml_dict (pname : string) (i : inst) : result ydata :=
    let data := yaml_list pname (i_set i) in
    let meta := meta_of i in
    match c_args (i_class i), meta with
    | [], [] => Ok (YPlain data)
    | args, _ =>
      do a <- mapM (fun k => match od_get k (i_attrs i) with Some v => Ok (k, v) | None => Err KeyError end) args;
      Ok (YDict (match args with [] => None | _ => Some a end)
                (match meta with [] => None | _ => Some meta end) data)
    end.

  (** A constructor call with keyword arguments *)
  Definition construct (c : class) (kwargs : od string string) : result inst :=
    if forallb (fun k => od_mem k kwargs) (c_args c) &&
       forallb (fun k => memb k (c_args c)) (od_keys kwargs)
    then Ok (mkInst c (kwargs ++ c_defaults c) empty)
    else Err TypeError.

  (** classes.py 446-465, one element of the list; [next] supplies the identity of the new
      distribution object. *)
  Definition load_entry (pname : string) (st : nat * cset P D) (e : yentry)
    : result (nat * cset P D) :=
    let '(next, s) := st in
    match e with
    | YFull pn ps v =>
      if eqb pn pname then
        do c <- load v;
        Ok (Datatypes.S next, snd (add_constraint false (map dec ps) (next, c) ([], s)))
      else Err ValueError
    | YShort p v =>
      if eqb p pname then Err KeyError
      else do c <- load_string v;
           Ok (Datatypes.S next, snd (add_constraint false [KStr p] (next, c) ([], s)))
    end.

  (** classes.py 434-466 [from_yaml_dict]; [instance]: add to an existing object instead of
      constructing one. *)
  Definition from_yaml_dict (c : class) (pname : string) (instance : option inst) (next : nat)
      (data : ydata) : result inst :=
    do start <- match data with
                | YPlain l =>
                  do i <- match instance with Some i => Ok i | None => construct c [] end;
                  Ok (i, l)
                | YDict args meta l =>
                  match args with
                  | None => Err KeyError
                  | Some a =>
                    do i <- match instance with Some i => Ok i | None => construct c a end;
                    Ok (mkInst (i_class i)
                          (od_update (i_attrs i) (match meta with Some m => m | None => [] end))
                          (i_set i), l)
                  end
                end;
    let '(i, l) := start in
    do st <- foldM (load_entry pname) l (next, i_set i);
    Ok (mkInst (i_class i) (i_attrs i) (snd st)).

  (** instanceio.py 78-84 [get_par_diff]: saved entries not equal to a saved default entry *)
  Variable yentry_eqb : yentry -> yentry -> bool.   (* == of the dictionaries *)
  Definition get_par_diff (pname : string) (default par : cset P D) : list yentry :=
    filter (fun c => negb (existsb (yentry_eqb c) (yaml_list pname default))) (yaml_list pname par).

  (** instanceio.py 61-66 [coerce_par_obj]: a copy of the defaults with the list added *)
  Definition coerce_par_obj (pname : string) (next : nat) (default : cset P D) (l : list yentry)
    : result (cset P D) :=
    do st <- foldM (load_entry pname) l (next, default); Ok (snd st).
End IO.
