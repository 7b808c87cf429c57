(** * Independent specification of constraint sets: functions of the history only *)
From Verif Require Import Base Constraints_Model.
Set Implicit Arguments.

Section Spec.
  Context {P D : Type} `{Eqb P} `{Eqb D}.

  (** Position of the last occurrence of [p] in a parameter list. *)
  Fixpoint last_index (p : P) (ps : list P) : option nat :=
    match ps with
    | [] => None
    | q :: ps' => match last_index p ps' with
                  | Some i => Some (S i)
                  | None => if eqb p q then Some 0 else None
                  end
    end.

  (** The constraint a history (newest first) leaves on [p]: decided by its last mention. *)
  Fixpoint current (hist : list (cop P D)) (p : P) : option (nat * D) :=
    match hist with
    | [] => None
    | Add _ ps c :: h => match last_index p ps with
                         | Some i => Some (i, c)
                         | None => current h p
                         end
    | Remove q :: h => if eqb p q then None else current h p
    end.

  (** The additions of a history in order. *)
  Fixpoint additions (ops : list (cop P D)) : list (D * list P) :=
    match ops with
    | [] => []
    | Add _ ps c :: ops' => (c, ps) :: additions ops'
    | Remove _ :: ops' => additions ops'
    end.

  (** Ordinary use: every addition uses its own distribution object and lists each
      parameter once. *)
  Definition ordinary (ops : list (cop P D)) : Prop :=
    NoDup (map fst (additions ops)) /\ Forall (fun cp => NoDup (snd cp)) (additions ops).

  (** Boolean version, to show that concrete histories satisfy it. *)
  Fixpoint nodupb {A} `{Eqb A} (l : list A) : bool :=
    match l with [] => true | x :: l' => negb (memb x l') && nodupb l' end.
  Definition ordinaryb (ops : list (cop P D)) : bool :=
    nodupb (map fst (additions ops)) && forallb (fun cp => nodupb (snd cp)) (additions ops).
End Spec.

Section LogSpec.
  Context {P D V L : Type} `{Eqb P} `{Eqb D}.

  (** [p] is still governed by distribution [c] after the history, and is not excluded. *)
  Definition live (hist : list (cop P D)) (excl : list P) (c : D) (p : P) : bool :=
    negb (memb p excl) &&
    match current hist p with Some (_, c') => eqb c c' | None => false end.

  (** What one addition [(c, ps)] contributes to the log-probability at the point [val]:
      nothing if none of its parameters is live; otherwise its (delta-)log-density at the
      values of the live parameters in order, all other components being removed. *)
  Definition contribution (lp : bool -> D -> larg V -> L) (delta : bool) (val : P -> V)
      (hist : list (cop P D)) (excl : list P) (cp : D * list P) : list (D * L) :=
    let '(c, ps) := cp in
    let l := filter (live hist excl c) ps in
    let removed := positions (fun p => negb (live hist excl c p)) ps in
    match l with
    | [] => []
    | p0 :: _ =>
      [(c, lp delta c (if Nat.eqb (length ps) 1 then Scalar (val p0)
                       else Vec (map val l) (match removed with [] => None | _ => Some removed end)))]
    end.

  (** Samples: component [i] of a joint draw for one parameter point ([size=None]), or of
      [n] joint draws ([size=n]), row [j] being draw [j]. *)
  Fixpoint column (rows : list (list V)) (i : nat) : option (list V) :=
    match rows with
    | [] => Some []
    | r :: rows' => match nth_error r i, column rows' i with
                    | Some v, Some vs => Some (v :: vs)
                    | _, _ => None
                    end
    end.
  Definition sample_component (size : option nat) (a : arr V) (i : nat) : option (arr V) :=
    match size, a with
    | None, A0 v => if Nat.eqb i 0 then Some (A0 v) else None
    | None, A1 l => option_map A0 (nth_error l i)
    | Some _, A1 l => if Nat.eqb i 0 then Some (A1 l) else None
    | Some _, A2 rows => option_map A1 (column rows i)
    | _, _ => None
    end.
  (** What a distribution for [n] parameters returns from [get_random]. *)
  Definition sample_fits (size : option nat) (n : nat) (a : arr V) : Prop :=
    match size, a with
    | None, A0 _ => n = 1
    | None, A1 l => length l = n
    | Some m, A1 l => n = 1 /\ length l = m
    | Some m, A2 rows => length rows = m /\ Forall (fun r => length r = n) rows
    | _, _ => False
    end.
  (** the [i]-th component of a vector (or the scalar itself) *)
  Definition component (a : arr V) (i : nat) : option V :=
    match a with A0 v => if Nat.eqb i 0 then Some v else None | A1 l => nth_error l i | A2 _ => None end.
  (** a quantity for [n] parameters: a scalar for one, or a vector of [n] numbers *)
  Definition fits (n : nat) (a : arr V) : Prop :=
    match a with A0 _ => n = 1 | A1 l => length l = n | A2 _ => False end.
End LogSpec.
