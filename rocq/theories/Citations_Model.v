(** * Model of flavio/citations.py and of Observable.theory_citations

    Simplifications: the [multiprocessing.Array] is one list of booleans (one process;
    sharing of the array between processes is not modelled); Python [set]s of strings are
    lists, read only through membership; the error message is dropped.  [sorted] on a set of
    strings is insertion sort by code points of the deduplicated list. *)
From Verif Require Import Base.
Set Implicit Arguments.

(** [sorted(...)] of strings *)
Fixpoint insert (x : string) (l : list string) : list string :=
  match l with
  | [] => [x]
  | y :: l' => if String.leb x y then x :: y :: l' else y :: insert x l'
  end.
Fixpoint sorted (l : list string) : list string :=
  match l with [] => [] | x :: l' => insert x (sorted l') end.

(** [enumerate] as used in citations.py:36-39 *)
Fixpoint enumerate_from (n : nat) (l : list string) : list (string * nat) :=
  match l with [] => [] | k :: l' => (k, n) :: enumerate_from (S n) l' end.

(** [a\[i\] = True]; flavio only uses indices taken from [_all_citations] *)
Fixpoint set_true (i : nat) (a : list bool) : list bool :=
  match a, i with
  | [], _ => []
  | _ :: a', 0 => true :: a'
  | b :: a', S i' => b :: set_true i' a'
  end.

(** [itertools.compress] *)
Fixpoint compress (l : list string) (a : list bool) : list string :=
  match l, a with
  | k :: l', b :: a' => if b then k :: compress l' a' else compress l' a'
  | _, _ => []
  end.

(** A [Citations] object (citations.py:24-42): [_initial_citations], [_all_citations],
    [_array]. *)
Record citations := mkC {
  initial_citations : list string;
  all_citations : od string nat;
  array : list bool
}.

(** [Citations.register] (citations.py:55-72); [None] is the [KeyError]: the assignment is
    not reached, the object is unchanged. *)
Definition register (c : citations) (k : string) : option citations :=
  match od_get k (all_citations c) with
  | Some i => Some (mkC (initial_citations c) (all_citations c) (set_true i (array c)))
  | None => None
  end.

(** the loop [for inspire_key in self._initial_citations: self.register(inspire_key)]
    (citations.py:41-42, 82-83): stops at an exception, keeping what was done. *)
Fixpoint register_all (c : citations) (ks : list string) : citations * bool :=
  match ks with
  | [] => (c, true)
  | k :: ks' => match register c k with
                | Some c' => register_all c' ks'
                | None => (c, false)
                end
  end.

(** [Citations.__init__] (citations.py:33-42); [known] is the content of
    data/citations.yml. *)
Definition init (known initial : list string) : citations * bool :=
  let all := enumerate_from 0 (sorted (dedup (known ++ initial))) in
  register_all (mkC (dedup initial) all (repeat false (length all))) (dedup initial).

(** [Citations.set] (citations.py:51-53) *)
Definition cset (c : citations) : list string :=
  compress (sorted (od_keys (all_citations c))) (array c).

(** [Citations.clear] (citations.py:75-77) *)
Definition clear (c : citations) : citations :=
  mkC (initial_citations c) (all_citations c) (repeat false (length (array c))).

(** [Citations.reset] (citations.py:79-83) *)
Definition reset (c : citations) : citations * bool :=
  register_all (clear c) (initial_citations c).

(** ** Programs using the module-level [flavio.citations] *)

(** The heap of [Citations] objects and the object that the name [flavio.citations] is bound
    to. *)
Record world := mkW { heap : list citations; current : nat }.

Fixpoint upd {A} (i : nat) (x : A) (l : list A) : list A :=
  match l, i with
  | [], _ => []
  | _ :: l', 0 => x :: l'
  | y :: l', S i' => y :: upd i' x l'
  end.

(** User programs: everything a prediction can do to [flavio.citations], including raising
    and catching exceptions and branching on whether a key is cited. *)
Inductive prog : Type :=
| Skip
| Reg (k : string)                    (* flavio.citations.register(k) *)
| Clr                                 (* flavio.citations.clear() *)
| Rst                                 (* flavio.citations.reset() *)
| IfCited (k : string) (p q : prog)   (* if k in flavio.citations.set: p else: q *)
| Raise (e : exc)
| Seq (p q : prog)
| Try (p q : prog)                    (* try: p except: q *)
| Collect (p : prog).                 (* with flavio.citations.collect(): p *)

(** Running a program.  [Collect] is citations.py:13-21 under Python's [with] statement: the
    outer object is saved, a new object without default citations is bound to
    [flavio.citations], and [__exit__] restores the saved binding whether the body raised or
    not; [__exit__] returns [None], so an exception goes on. *)
Fixpoint run (known : list string) (p : prog) (w : world) : world * option exc :=
  match p with
  | Skip => (w, None)
  | Reg k =>
      match nth_error (heap w) (current w) with
      | Some c => match register c k with
                  | Some c' => (mkW (upd (current w) c' (heap w)) (current w), None)
                  | None => (w, Some KeyError)
                  end
      | None => (w, Some AttributeError)
      end
  | Clr =>
      match nth_error (heap w) (current w) with
      | Some c => (mkW (upd (current w) (clear c) (heap w)) (current w), None)
      | None => (w, Some AttributeError)
      end
  | Rst =>
      match nth_error (heap w) (current w) with
      | Some c => (mkW (upd (current w) (fst (reset c)) (heap w)) (current w),
                   if snd (reset c) then None else Some KeyError)
      | None => (w, Some AttributeError)
      end
  | IfCited k p q =>
      match nth_error (heap w) (current w) with
      | Some c => if memb k (cset c) then run known p w else run known q w
      | None => (w, Some AttributeError)
      end
  | Raise e => (w, Some e)
  | Seq p q => match run known p w with
               | (w', None) => run known q w'
               | (w', Some e) => (w', Some e)
               end
  | Try p q => match run known p w with
               | (w', None) => (w', None)
               | (w', Some _) => run known q w'
               end
  | Collect p =>
      let saved := current w in
      let (w', o) := run known p (mkW (heap w ++ [fst (init known [])]) (length (heap w))) in
      (mkW (heap w') saved, o)
  end.

(** [Observable.theory_citations] (classes.py:708-717): the prediction runs inside a scope;
    the set is read from the collected object after the scope is left. *)
Definition theory_citations (known : list string) (prediction : prog) (w : world)
  : world * result (list string) :=
  let (w', o) := run known (Collect prediction) w in
  (w', match o with
       | None => match nth_error (heap w') (length (heap w)) with
                 | Some c => Ok (cset c)
                 | None => Err AttributeError
                 end
       | Some e => Err e
       end).
