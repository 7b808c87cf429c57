(** * Model of the named-instance registries (flavio/classes.py 20-73)

    A Python class attribute [instances] is looked up along the method resolution order
    (MRO); assigning it always creates/overwrites the attribute on the class itself.  Objects
    are opaque (type parameter [Obj]); names are strings.

    Simplifications: an instance is represented by an opaque value [Obj] (its identity);
    attributes other than the registration are not part of this model; [find] (70-73) takes
    the compiled regular expression as an oracle [string -> bool]. *)
From Verif Require Import Base.
Set Implicit Arguments.
Notation cls := nat (only parsing).

Section Registry.
  Context {Obj : Type}.

  (** The [OrderedDict] bound to a class attribute [instances]. *)
  Definition reg := od string Obj.

  (** Classes are numbered; [mro c] is the method resolution order of [c], starting with [c]
      itself and listing only the classes that can carry an [instances] attribute. *)
  Variable mro : cls -> list cls.

  (** Class attributes: which classes have their own [instances] dictionary. *)
  Definition heap := od cls reg.

  (** Attribute lookup [C.instances] (used by all methods): the first class in the MRO that
      has the attribute.  [None] = AttributeError. *)
  Fixpoint owner_in (h : heap) (l : list cls) : option cls :=
    match l with
    | [] => None
    | c :: l' => if od_mem c h then Some c else owner_in h l'
    end.
  Definition owner (h : heap) (c : cls) : option cls := owner_in h (mro c).

  Definition instances (h : heap) (c : cls) : option reg :=
    match owner h c with Some o => od_get o h | None => None end.

  Inductive op : Type :=
  | Create (c : cls) (name : string) (o : Obj)
  | Get (c : cls) (name : string)
  | Del (c : cls) (name : string)
  | Clear (c : cls).

  Inductive out : Type :=
  | Done
  | Got (o : Obj).

  (** classes.py 48-54 [NamedInstanceClass.__init__]: if the class has no [instances]
      attribute (own or inherited: [hasattr]), bind a fresh OrderedDict on the class itself;
      then store into whichever dictionary the attribute lookup finds. *)
  Definition create (c : cls) (name : string) (o : Obj) (h : heap) : heap :=
    let h1 := match owner h c with
              | Some _ => h
              | None => od_set c [] h
              end in
    match owner h1 c with
    | Some w => match od_get w h1 with
                | Some r => od_set w (od_set name o r) h1
                | None => h1
                end
    | None => h1
    end.

  (** classes.py 56-58 [get_instance] (and [__getitem__], 25-26) *)
  Definition get_instance (c : cls) (name : string) (h : heap) : result Obj :=
    match instances h c with
    | None => Err AttributeError
    | Some r => match od_get name r with Some o => Ok o | None => Err KeyError end
    end.

  (** classes.py 60-62 [del_instance] (and [__delitem__], 28-29) *)
  Definition del_instance (c : cls) (name : string) (h : heap) : heap * result out :=
    match owner h c with
    | None => (h, Err AttributeError)
    | Some w =>
      match od_get w h with
      | None => (h, Err AttributeError)
      | Some r => if od_mem name r then (od_set w (od_pop name r) h, Ok Done)
                  else (h, Err KeyError)
      end
    end.

  (** classes.py 64-67 [clear_all]: binds a fresh dictionary on the class itself. *)
  Definition clear_all (c : cls) (h : heap) : heap := od_set c [] h.

  (** classes.py 69-73 [find]: names for which the compiled expression finds a match, in
      iteration order of the registry. *)
  Definition find (rc_search : string -> bool) (c : cls) (h : heap) : result (list string) :=
    match instances h c with
    | None => Err AttributeError
    | Some r => Ok (filter rc_search (od_keys r))
    end.

  Definition step (h : heap) (o : op) : heap * result out :=
    match o with
    | Create c n x => (create c n x h, Ok Done)
    | Get c n => (h, match get_instance c n h with Ok x => Ok (Got x) | Err e => Err e end)
    | Del c n => del_instance c n h
    | Clear c => (clear_all c h, Ok Done)
    end.

  (** A program state after a history of operations (oldest first), from import time. *)
  Definition run (ops : list op) (h : heap) : heap :=
    fold_left (fun h o => fst (step h o)) ops h.
  Definition init : heap := [].
End Registry.
