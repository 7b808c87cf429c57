(** * Specification for lepton-flavour violation and electric dipole moments *)
From Coq Require Import Reals List String.
From Coquelicot Require Import Coquelicot.
From Verif Require Import Base Basics_Model Decays_Model Leptonic_Model LFV_Model.
Import ListNotations.
Local Open Scope R_scope.

(** no new physics; all coefficients multiplied by a number; complex conjugate coefficients (the CP-conjugate process) *)
Definition none3 : getwc := fun _ _ => RtoC 0.
Definition scaled (t : R) (g : getwc) : getwc := fun s n => (RtoC t * g s n)%C.
Definition cp (g : getwc) : getwc := fun s n => Cconj (g s n).

(** the six decays tau -> l1 l2 l3 *)
Definition decays3 : list (lep3 * lep3 * lep3) := [(Lmu, Le, Le); (Lmu, Lmu, Lmu); (Le, Le, Le); (Le, Lmu, Lmu); (Le, Lmu, Le); (Lmu, Le, Lmu)].

(** mirror image: sector, two coefficients that parity exchanges, and whether one of them is stored for the hermitian conjugate operator.
    Vector operators: LL and RR are exchanged, LR (first pair left, second right) becomes the operator with the pairs exchanged; scalar, tensor and dipole
    operators with right-handed projectors become the hermitian conjugates of those with both pairs reversed *)
Definition mirror_table : list (string * string * string * bool) :=
  [("mutau", "Cgamma_taumu", "Cgamma_mutau", true); ("taue", "Cgamma_taue", "Cgamma_etau", true); ("mue", "Cgamma_mue", "Cgamma_emu", true);
   ("mutau", "CVLL_mumutaumu", "CVRR_mumutaumu", false); ("mutau", "CVLR_taumumumu", "CVLR_mumutaumu", false); ("mutau", "CSRR_mumutaumu", "CSRR_mumumutau", true);
   ("taue", "CVLL_eetaue", "CVRR_eetaue", false); ("taue", "CVLR_taueee", "CVLR_eetaue", false); ("taue", "CSRR_eetaue", "CSRR_eeetau", true);
   ("mue", "CVLL_eemue", "CVRR_eemue", false); ("mue", "CVLR_mueee", "CVLR_eemue", false); ("mue", "CSRR_eemue", "CSRR_eeemu", true);
   ("mutau", "CVLL_eetaumu", "CVRR_eetaumu", false); ("mutau", "CVLR_taumuee", "CVLR_eetaumu", false); ("mutau", "CSRR_eetaumu", "CSRR_eemutau", true);
   ("mutau", "CSRR_taueemu", "CSRR_mueetau", true); ("mutau", "CVLR_taueemu", "CVLR_mueetau", true);
   ("taue", "CVLL_muetaumu", "CVRR_muetaumu", false); ("taue", "CVLR_tauemumu", "CVLR_mumutaue", false); ("taue", "CSRR_tauemumu", "CSRR_mumuetau", true);
   ("taue", "CSRR_muetaumu", "CSRR_emumutau", true); ("taue", "CVLR_taumumue", "CVLR_muetaumu", false);
   ("etauemu", "CVLL_muetaue", "CVRR_muetaue", false); ("etauemu", "CVLR_tauemue", "CVLR_muetaue", false); ("etauemu", "CSRR_muetaue", "CSRR_emuetau", true);
   ("muemutau", "CVLL_muemutau", "CVRR_muemutau", false); ("muemutau", "CVLR_taumuemu", "CVLR_muemutau", true); ("muemutau", "CSRR_muemutau", "CSRR_emutaumu", true)]%string.
(** the same for operators with quarks q q and leptons l1 l2 *)
Definition mirror_quarks (sec l1 l2 : string) : list (string * string * string * bool) :=
  flat_map (fun q => let qq := (q ++ q)%string in
    [(sec, "CVLL_" ++ l1 ++ l2 ++ qq, "CVRR_" ++ l1 ++ l2 ++ qq, false); (sec, "CVLR_" ++ l1 ++ l2 ++ qq, "CVLR_" ++ qq ++ l1 ++ l2, false);
     (sec, "CSRR_" ++ l1 ++ l2 ++ qq, "CSRR_" ++ l2 ++ l1 ++ qq, true); (sec, "CSRL_" ++ l1 ++ l2 ++ qq, "CSRL_" ++ l2 ++ l1 ++ qq, true);
     (sec, "CTRR_" ++ l1 ++ l2 ++ qq, "CTRR_" ++ l2 ++ l1 ++ qq, true)]%string) ["u"; "d"; "s"]%string.
Definition mirror_all := (mirror_table ++ mirror_quarks "mutau" "tau" "mu" ++ mirror_quarks "taue" "tau" "e" ++ mirror_quarks "mue" "mu" "e")%list.
Definition mirrored (g g' : getwc) : Prop :=
  Forall (fun r => let '(s, a, b, c) := r in
    g' s a = (if c : bool then Cconj (g s b) else g s b) /\ g' s b = (if c : bool then Cconj (g s a) else g s a)) mirror_all.

(** only the dipole coefficients are non-zero *)
Definition dipole_only (g : getwc) : Prop := forall s n, ~ In n ["Cgamma_taumu"; "Cgamma_mutau"; "Cgamma_taue"; "Cgamma_etau"; "Cgamma_mue"; "Cgamma_emu"]%string -> g s n = RtoC 0.

(** quark content of the vector mesons and electric charges of quarks *)
Definition content (V : vec) : list (string * R) := match V with Vrho => [("u"%string, 1 / sqrt 2); ("d"%string, - (1 / sqrt 2))] | Vphi => [("s"%string, 1)] end.
Definition Qq (q : string) : R := if String.eqb q "u" then 2 / 3 else - (1 / 3).
Definition csum (l : list C) : C := fold_right Cplus (RtoC 0) l.

(** mu-e conversion: amplitude for outgoing leptons of one chirality in terms of the dipole, vector (x) and scalar (y) coefficients: protons contain two u and one d,
    neutrons one u and two d valence quarks; scalar charges of the proton, those of the neutron with u and d exchanged *)
Definition conv_amp (mm : R) (pc : charges) (nu : nucleus) (dip xu xd yu yd ys : C) : C :=
  (RtoC (n_D nu / (2 * mm)) * dip
   + RtoC (n_Vp nu) * (RtoC 2 * xu + xd) + RtoC (n_Vn nu) * (xu + RtoC 2 * xd)
   + RtoC (n_Sp nu) * (RtoC ((gSp pc + gSm pc) / 2) * yu + RtoC ((gSp pc - gSm pc) / 2) * yd + RtoC (gSs pc) * ys)
   + RtoC (n_Sn nu) * (RtoC ((gSp pc - gSm pc) / 2) * yu + RtoC ((gSp pc + gSm pc) / 2) * yd + RtoC (gSs pc) * ys))%C.
(** exchange of u and d quarks, and of protons and neutrons *)
Definition isospin_nu (nu : nucleus) : nucleus := Nucleus (n_D nu) (n_Sn nu) (n_Vn nu) (n_Sp nu) (n_Vp nu) (n_capt nu).
Definition isospin_wc (w w' : string -> C) : Prop :=
  (forall pre, In pre ["CVLL_mue"; "CVRR_mue"; "CVLR_mue"; "CSRR_mue"; "CSRL_mue"; "CSRR_emu"; "CSRL_emu"]%string ->
     w' (pre ++ "uu")%string = w (pre ++ "dd")%string /\ w' (pre ++ "dd")%string = w (pre ++ "uu")%string /\ w' (pre ++ "ss")%string = w (pre ++ "ss")%string)
  /\ w' "CVLR_uumue"%string = w "CVLR_ddmue"%string /\ w' "CVLR_ddmue"%string = w "CVLR_uumue"%string
  /\ w' "Cgamma_emu"%string = w "Cgamma_emu"%string /\ w' "Cgamma_mue"%string = w "Cgamma_mue"%string.
