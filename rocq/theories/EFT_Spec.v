(** * Specification for Wilson-coefficient objects (C137-C141) *)
From Verif Require Import Base EFT_Model.
Local Open Scope string_scope.

(** the names of sectors before version 0.27, by systematics: initial quark, final quark, leptons *)
Definition leptons := ["e"; "mu"; "tau"].
Definition pairs_of (f : string -> string -> list (string * string)) : list (string * string) := flat_map (fun l => flat_map (f l) leptons) leptons.
(** charged currents q -> Q l nu: WCxf sector Q q l nu for every neutrino *)
Definition charged (q Q : string) := pairs_of (fun l nu => [(q ++ Q ++ l ++ "nu" ++ nu, Q ++ q ++ l ++ "nu")]).
(** neutral currents q -> Q l l'; with two different leptons both currents are reversed *)
Definition neutral (q Q sector : string) := flat_map (fun l => [(q ++ Q ++ l ++ l, sector)]) leptons.
Definition violating (q Q : string) := pairs_of (fun l l' => if l =? l' then [] else [(q ++ Q ++ l ++ l', Q ++ q ++ l' ++ l)]).
Definition neutrinos (q Q sector : string) := pairs_of (fun l l' => [(q ++ Q ++ "nu" ++ l ++ "nu" ++ l', sector ++ "nunu")]).
Definition legacy : list (string * string) :=
  charged "b" "c" ++ charged "b" "u" ++ charged "d" "c" ++ charged "d" "u" ++ charged "s" "c" ++ charged "s" "u" ++
  neutral "b" "d" "db" ++ neutral "b" "s" "sb" ++ neutral "s" "d" "sd" ++ violating "b" "d" ++ violating "b" "s" ++
  neutrinos "b" "d" "db" ++ neutrinos "b" "s" "sb" ++ neutrinos "s" "d" "sd" ++
  [("bdbd", "dbdb"); ("bsbs", "sbsb"); ("sdsd", "sdsd"); ("ucuc", "cucu")].

(** the coefficients of a sector, for its WCxf name *)
Definition sector_coeffs (basis : od string (list string)) (sector : string) (ks : list string) : Prop :=
  (sector = "all" /\ forall k, In k ks <-> exists s l, In (s, l) basis /\ In k l) \/ (sector <> "all" /\ od_get sector basis = Some ks).
(** no new physics: nothing set, or every value zero *)
Definition no_np {V Sc} (truthy : V -> bool) (self : option (wcxf V Sc)) : Prop :=
  match self with None => True | Some w => forall k v, In (k, v) (x_values w) -> truthy v = false end.
(** the WCxf name of a sector *)
Definition wcxf_name (sector name : string) : Prop := In (sector, name) legacy \/ (name = sector /\ forall n, ~ In (sector, n) legacy).

(** what a history of uses of one Wilson object should return: predictions for the parameters given, own runs for the parameters set by the owner *)
Definition expected {P K R} (compute : P -> K -> R) (own : P) (x : op) : option R :=
  match x with Predict par k => Some (compute par k) | Own k => Some (compute own k) | Own_option _ => None end.
Fixpoint expected_all {P K R} (compute : P -> K -> R) (own : P) (l : list op) : list (option R) :=
  match l with [] => [] | x :: l => expected compute own x :: expected_all compute (match x with Own_option p => p | _ => own end) l end.
Definition predictions {P K : Type} (l : list (@op P K)) : bool := forallb (fun x => match x with Predict _ _ => true | _ => false end) l.
