(** * Specification of the citation manager: plain sets of keys

    Independent of arrays, indices, heaps and scopes. *)
From Verif Require Import Base Citations_Model.

(** What a program does, told with plain lists of keys: [allowed] keys can be registered,
    [defaults] come back on reset, [s] is cited so far (newest first).  A scope works on its
    own empty list and leaves the outer one alone.  The second component of the result is the
    exception that leaves the program, if any. *)
Fixpoint told (known allowed defaults : list string) (p : prog) (s : list string)
  : list string * option exc :=
  match p with
  | Skip => (s, None)
  | Reg k => if memb k allowed then (k :: s, None) else (s, Some KeyError)
  | Clr => ([], None)
  | Rst => (defaults, None)
  | IfCited k p q => if memb k s then told known allowed defaults p s
                     else told known allowed defaults q s
  | Raise e => (s, Some e)
  | Seq p q => match told known allowed defaults p s with
               | (s', None) => told known allowed defaults q s'
               | (s', Some e) => (s', Some e)
               end
  | Try p q => match told known allowed defaults p s with
               | (s', None) => (s', None)
               | (s', Some _) => told known allowed defaults q s'
               end
  | Collect p => (s, snd (told known known [] p []))
  end.

(** A straight-line history of calls on one object. *)
Inductive call := CRegister (k : string) | CClear | CReset.

(** The object after a history; a raising [register] leaves the exception to the caller, who
    goes on. *)
Definition do_call (c : citations) (x : call) : citations :=
  match x with
  | CRegister k => match register c k with Some c' => c' | None => c end
  | CClear => clear c
  | CReset => fst (reset c)
  end.
Definition history (c : citations) (h : list call) : citations := fold_left do_call h c.

(** A key is cited after a history iff it is registrable and was registered after the last
    clear/reset, or it is a default and no clear came after the creation or last reset. *)
Definition cited_after (known defaults : list string) (h : list call) (k : string) : Prop :=
  (In k (known ++ defaults) /\
   exists h1 h2, h = h1 ++ CRegister k :: h2 /\ ~ In CClear h2 /\ ~ In CReset h2)
  \/
  (In k defaults /\
   ((~ In CClear h) \/ exists h1 h2, h = h1 ++ CReset :: h2 /\ ~ In CClear h2)).
