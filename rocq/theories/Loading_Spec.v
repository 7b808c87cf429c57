(** * What is expected of the readers of measurement and parameter files *)
From Coq Require Import Reals.
From Verif Require Import Base Loading_Model.
Set Implicit Arguments.
Local Open Scope R_scope.

(** n rows of length n *)
Definition square (n : nat) (m : list (list R)) : Prop := length m = n /\ Forall (fun r => length r = n) m.
(** element in row [i] and column [j] *)
Definition at_ (m : list (list R)) (i j : nat) : R := nth j (nth i m []) 0.
Definition symmetric (n : nat) (m : list (list R)) : Prop := forall i j, (i < n)%nat -> (j < n)%nat -> at_ m i j = at_ m j i.
Definition unit_diagonal (n : nat) (m : list (list R)) : Prop := forall i, (i < n)%nat -> at_ m i i = 1.

(** the rows of the upper right triangle including the diagonal *)
Definition triangle (n : nat) (u : list (list R)) : Prop :=
  length u = n /\ forall i, (i < n)%nat -> length (nth i u []) = (n - i)%nat /\ nth 0 (nth i u []) 0 = 1.
(** the element of the triangle for row [i] and column [j >= i] *)
Definition above (u : list (list R)) (i j : nat) : R := nth (j - i) (nth i u []) 0.

(** a line that is understood: a full row or the part right of the diagonal, one on the diagonal *)
Definition good_line (n i : nat) (r : row) : Prop :=
  exists l, r = Row l /\ (length l = n /\ nth i l 0 = 1 \/ length l = (n - i)%nat /\ nth 0 l 0 = 1).

Definition sum_of (l : list R) : R := fold_right Rplus 0 l.
(** quadratic sum of the uncertainties; an asymmetric one counts as the product of its two sides *)
Definition variance (e : errs) : R := sum_of (map (fun x => x ^ 2) (e_sym e)) + sum_of (map (fun ab => fst ab * snd ab) (e_asym e)).

Section Spec.
  Context {A C Text Dist : Type}.
  Variable observable : string -> result (option (list string)).
  Variable from_text : Text -> result C.
  Variable from_dict : Dist -> result C.
  Variable from_values : yvalues A Text Dist -> result C.
  Variable errors_from : yvalue Text Dist -> result errs.
  Variable mvn : list R -> matrix -> result C.

  (** the observable meant by a name and a dictionary of arguments: the values in the order of the
      observable's arguments *)
  Definition denotes (name : string) (args : od string A) (k : okey A) : Prop :=
    exists names vals, observable name = Ok (Some names) /\ k = KArgs name vals /\
      Forall2 (fun a v => od_get a args = Some v) names vals.
  Definition meant (o : yobs A) (k : okey A) : Prop :=
    match o with OStr s => k = KName s | ODict name args => denotes name args k end.
  Definition dist_of (v : yvalue Text Dist) (d : C) : Prop :=
    match v with YText t => from_text t = Ok d | YDist x => from_dict x = Ok d end.
  (** one entry of 'values' *)
  Definition entries (v : yvalues A Text Dist) : list (yobs A * yvalue Text Dist) :=
    match v with
    | VList l => map (fun y => (ODict (y_name y) (y_args y), y_value y)) l
    | VDict d => map (fun kv => (OStr (fst kv), snd kv)) d
    end.
  (** the constraints written in the file for one measurement *)
  Definition written (m : mdata A Text Dist) (adds : list (addition A C)) : Prop :=
    match m with
    | MList => False
    | MDict _ (Some obs) _ values =>
      exists v ks d, values = Some v /\ from_values v = Ok d /\ Forall2 meant obs ks /\ adds = [(ks, d)]
    | MDict _ None None values =>
      exists v, values = Some v /\
        Forall2 (fun e a => exists k d, a = ([k], d) /\ meant (fst e) k /\ dist_of (snd e) d) (entries v) adds
    | MDict _ None (Some c) values =>
      exists v ks es rho cov d, values = Some v /\
        Forall2 (fun e k => meant (fst e) k) (entries v) ks /\
        Forall2 (fun e x => errors_from (snd e) = Ok x) (entries v) es /\
        let n := length es in
        fix_correlation_matrix c n = Ok rho /\
        square n cov /\
        (forall i j, (i < n)%nat -> (j < n)%nat ->
           at_ cov i j = sqrt (variance (nth i es (mkErrs 0 [] []))) * sqrt (variance (nth j es (mkErrs 0 [] []))) * at_ rho i j) /\
        mvn (map e_central es) cov = Ok d /\ adds = [(ks, d)]
    end.
  Definition attributes (m : mdata A Text Dist) : od string string :=
    match m with
    | MDict a _ _ _ => filter (fun kv => memb (fst kv) ["inspire"; "hepdata"; "experiment"; "url"; "description"]%string) a
    | MList => []
    end.
End Spec.

(** the constraint for a value with two uncertainties: a normal distribution if they are equal, otherwise an
    asymmetric one with the given sides *)
Definition pdg_constrained (c r l : R) (d : pdg_constraint) : Prop :=
  (r = l /\ d = PNormal c r) \/ (r <> l /\ d = PAsymmetric c r l).
