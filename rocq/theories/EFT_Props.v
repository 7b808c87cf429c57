(** * Theorems about Wilson-coefficient objects: C137-C141 *)
From Verif Require Import Base BaseLemmas EFT_Model EFT_Spec EFT_Proofs.
Local Open Scope string_scope.

Section Eft.
  Context {V Sc : Type} (vzero : V) (truthy : V -> bool) (Basis : string -> string -> option (od string (list string)))
    (match_run : wcxf V Sc -> Sc -> string -> string -> option string -> result (wcxf V Sc)).
  Let get_wc := get_wc vzero truthy Basis match_run.
  Let get_wcxf := get_wcxf match_run.

  Lemma coeffs_of b name ks sector : wcxf_name sector name -> sector_coeffs b name ks ->
    exists ks', (if sector =? "all" then Ok (concat (map snd b)) else match od_get (translate sector) b with Some c => Ok c | None => Err KeyError end) = Ok ks' /\ (forall k, In k ks' <-> In k ks) /\ (sector =? "all") = (name =? "all").
  Proof using.
    intros N S. apply translate_name in N. assert (Q : (sector =? "all") = (name =? "all")).
    { destruct (String.eqb_spec name "all") as [e | e]; [apply String.eqb_eq; apply translate_all; congruence | apply String.eqb_neq; intros ->; apply e; rewrite <- N; reflexivity]. }
    rewrite Q. destruct S as [(-> & S) | (n & S)].
    - cbn [String.eqb]. exists (concat (map snd b)). refine (conj eq_refl (conj _ eq_refl)). intros k. rewrite S, in_concat. split.
      + intros (l & i & j). apply in_map_iff in i. destruct i as ((s & l') & <- & i). exists s, l'. split; assumption.
      + intros (s & l & i & j). exists l. split; [apply in_map_iff; exists (s, l); split; [reflexivity | exact i] | exact j].
    - apply String.eqb_neq in n. rewrite n, N, S. exists ks. refine (conj eq_refl (conj _ eq_refl)). intros k. reflexivity.
  Qed.
  Lemma not_np_dec (w : wcxf V Sc) : existsb truthy (map snd (x_values w)) = false <-> no_np truthy (Some w).
  Proof using.
    cbn [no_np]. split.
    - intros E k v i. destruct (truthy v) eqn:T; [| reflexivity]. rewrite <- E. symmetry. apply existsb_exists. exists v. split; [apply in_map_iff; exists (k, v); split; [reflexivity | exact i] | exact T].
    - intros N. destruct (existsb truthy _) eqn:E; [| reflexivity]. apply existsb_exists in E. destruct E as (v & i & T). apply in_map_iff in i. destruct i as ((k & v') & <- & i). cbn [snd] in T. rewrite (N _ _ i) in T. discriminate.
  Qed.
  Lemma memb_ext (a b : list string) k : (forall x, In x a <-> In x b) -> memb k a = memb k b.
  Proof using. intros E. destruct (memb_spec k a) as [i | n], (memb_spec k b) as [j | m]; try reflexivity; exfalso; [apply m; now apply E | apply n; now apply E]. Qed.

  (** ** C137: the dictionary of a sector *)
  Theorem C137_sm (self : option (wcxf V Sc)) (sector name eft basis : string) (scale : Sc) nf_out b ks : no_np truthy self ->
    Basis eft basis = Some b -> wcxf_name sector name -> sector_coeffs b name ks ->
    exists d, get_wc self sector scale eft basis nf_out = Ok d /\ (forall k v, od_get k d = Some v <-> In k ks /\ v = vzero) /\ NoDup (od_keys d).
  Proof using.
    intros N B Nm S. destruct (coeffs_of b name ks sector Nm S) as (ks' & E & Ek & _). unfold get_wc, EFT_Model.get_wc. rewrite B, E. cbn [bind]. set (d := od_of_list _). exists d. split; [| split].
    - destruct self as [w |]; [| reflexivity]. apply not_np_dec in N. rewrite N. reflexivity.
    - intros k v. unfold d. rewrite zeros_get, (memb_ext ks' ks k Ek). destruct (memb_spec k ks) as [i | n]; split; [intros [= <-]; split; [exact i | reflexivity] | intros (_ & ->); reflexivity | discriminate | intros (i & _); contradiction].
    - apply update_NoDup. constructor.
  Qed.
  Theorem C137_np (w : wcxf V Sc) (sector name eft basis : string) (scale : Sc) b ks : ~ no_np truthy (Some w) ->
    Basis eft basis = Some b -> wcxf_name sector name -> sector_coeffs b name ks ->
    match match_run w scale eft basis (if string_dec name "all" then None else Some name) with
    | Err e => get_wc (Some w) sector scale eft basis None = Err e
    | Ok out => exists d, get_wc (Some w) sector scale eft basis None = Ok d /\ NoDup (od_keys d) /\
      (NoDup (od_keys (x_values out)) -> forall k, od_get k d = match od_get k (x_values out) with Some v => Some v | None => if in_dec string_dec k ks then Some vzero else None end) /\
      ((forall k, In k (od_keys (x_values out)) -> In k ks) -> forall k, In k (od_keys d) <-> In k ks)
    end.
  Proof using.
    intros N B Nm S. destruct (coeffs_of b name ks sector Nm S) as (ks' & E & Ek & A).
    assert (T : existsb truthy (map snd (x_values w)) = true) by (destruct (existsb truthy _) eqn:Q; [reflexivity | exfalso; apply N; now apply not_np_dec]).
    unfold get_wc, EFT_Model.get_wc. rewrite B, E. cbn [bind]. rewrite T. cbn [negb]. unfold EFT_Model.get_wcxf. cbn [eft_of bind]. rewrite A. apply translate_name in Nm. rewrite Nm.
    assert (Q : (if name =? "all" then None else Some name) = (if string_dec name "all" then None else Some name)) by (destruct (String.eqb_spec name "all"), (string_dec name "all"); congruence || reflexivity).
    rewrite Q. destruct (match_run w scale eft basis _) as [out | e]; [| reflexivity]. cbn [bind]. set (d := od_update _ _). exists d. refine (conj eq_refl (conj _ (conj _ _))).
    - apply update_NoDup, update_NoDup. constructor.
    - intros Nd k. unfold d. rewrite update_get by exact Nd. rewrite zeros_get, (memb_ext ks' ks k Ek). destruct (memb_spec k ks), (in_dec string_dec k ks); try contradiction; reflexivity.
    - intros I k. unfold d. destruct (update_any (x_values out) (od_of_list (map (fun k => (k, vzero)) ks')) k) as (U & _). rewrite zeros_get, (memb_ext ks' ks k Ek) in U.
      destruct (memb_spec k ks) as [i | n].
      + split; [intros _; exact i | intros _]. destruct (od_get k (od_update _ (x_values out))) as [v |] eqn:G; [now apply od_get_In_keys in G |]. destruct (proj1 U eq_refl) as (_ & Z). discriminate.
      + split; [| intros; contradiction]. intros J. destruct (od_get k (x_values out)) as [v |] eqn:G; [exfalso; apply n, I; now apply od_get_In_keys in G |]. exfalso. assert (Z := proj2 U (conj eq_refl eq_refl)). apply od_get_None in Z. contradiction.
  Qed.
  Theorem C137_errors (self : option (wcxf V Sc)) (sector name eft basis : string) (scale : Sc) nf_out : wcxf_name sector name ->
    (Basis eft basis = None -> get_wc self sector scale eft basis nf_out = Err KeyError) /\
    (forall b, Basis eft basis = Some b -> name <> "all" -> od_get name b = None -> get_wc self sector scale eft basis nf_out = Err KeyError).
  Proof using.
    intros Nm. apply translate_name in Nm. split; [intros B; unfold get_wc, EFT_Model.get_wc; rewrite B; reflexivity |]. intros b B A E. unfold get_wc, EFT_Model.get_wc. rewrite B.
    assert (Q : sector =? "all" = false) by (apply String.eqb_neq; intros ->; apply A; rewrite <- Nm; reflexivity). rewrite Q, Nm, E. reflexivity.
  Qed.

  (** ** C138: names of sectors *)
  Theorem C138_same (self : option (wcxf V Sc)) (sector name eft basis : string) (scale : Sc) nf_out : wcxf_name sector name ->
    get_wc self sector scale eft basis nf_out = get_wc self name scale eft basis nf_out /\ get_wcxf self sector scale eft basis nf_out = get_wcxf self name scale eft basis nf_out.
  Proof using.
    intros Nm. apply translate_name in Nm.
    assert (Q : (sector =? "all") = (name =? "all")).
    { destruct (String.eqb_spec name "all") as [e | e]; [apply String.eqb_eq; apply translate_all; congruence | apply String.eqb_neq; intros ->; apply e; rewrite <- Nm; reflexivity]. }
    assert (T : translate name = name) by (rewrite <- Nm; apply translate_twice).
    assert (X : forall e n, get_wcxf self sector scale e basis n = get_wcxf self name scale e basis n) by (intros e n; unfold get_wcxf, EFT_Model.get_wcxf; rewrite Q, Nm, T; reflexivity).
    split; [| apply X]. unfold get_wc, EFT_Model.get_wc. rewrite Q, Nm, T. unfold get_wcxf in X. rewrite X. reflexivity.
  Qed.

  (** ** C140: the number of flavours *)
  Definition flavours (n : Z) (eft : string) : Prop := (n = 5%Z /\ eft = "WET") \/ (n = 4%Z /\ eft = "WET-4") \/ (n = 3%Z /\ eft = "WET-3").
  Theorem C140_eft (self : option (wcxf V Sc)) (sector eft eft' basis : string) (scale : Sc) (n : Z) :
    (flavours n eft' -> get_wcxf self sector scale eft basis (Some n) = get_wcxf self sector scale eft' basis None) /\
    ((forall e, ~ flavours n e) -> get_wcxf self sector scale eft basis (Some n) = Err ValueError).
  Proof using.
    split.
    - intros [(-> & ->) | [(-> & ->) | (-> & ->)]]; reflexivity.
    - intros F. unfold get_wcxf, EFT_Model.get_wcxf, eft_of. destruct (Z.eqb_spec n 5) as [-> | n5]; [exfalso; apply (F "WET"); left; auto |]. destruct (Z.eqb_spec n 4) as [-> | n4]; [exfalso; apply (F "WET-4"); right; left; auto |].
      destruct (Z.eqb_spec n 3) as [-> | n3]; [exfalso; apply (F "WET-3"); right; right; auto | reflexivity].
  Qed.
  (** coefficients that occur in both dictionaries agree *)
  Theorem C140_values (w : wcxf V Sc) (sector eft eft' basis : string) (scale : Sc) (n : Z) d d' k v v' : flavours n eft' -> ~ no_np truthy (Some w) ->
    get_wc (Some w) sector scale eft basis (Some n) = Ok d -> get_wc (Some w) sector scale eft' basis None = Ok d' ->
    (forall out, get_wcxf (Some w) sector scale eft' basis None = Ok out -> NoDup (od_keys (x_values out))) ->
    od_get k d = Some v -> od_get k d' = Some v' -> v = v'.
  Proof using.
    intros F N E E' Nd. assert (T : existsb truthy (map snd (x_values w)) = true) by (destruct (existsb truthy _) eqn:Q; [reflexivity | exfalso; apply N; now apply not_np_dec]).
    destruct (C140_eft (Some w) sector eft eft' basis scale n) as (X & _). specialize (X F). unfold get_wcxf in *. unfold get_wc, EFT_Model.get_wc in E, E'.
    destruct (Basis eft basis) as [b |]; [| discriminate]. destruct (Basis eft' basis) as [b' |]; [| discriminate]. rewrite T in E, E'. cbn [negb] in E, E'. rewrite X in E.
    destruct (if sector =? "all" then Ok (concat (map snd b)) else _) as [ks |]; [| discriminate]. destruct (if sector =? "all" then Ok (concat (map snd b')) else _) as [ks' |]; [| discriminate]. cbn [bind] in E, E'.
    destruct (EFT_Model.get_wcxf match_run (Some w) sector scale eft' basis None) as [out |]; [| discriminate]. specialize (Nd out eq_refl). cbn [bind] in E, E'. injection E as <-. injection E' as <-.
    rewrite !update_get by exact Nd. destruct (od_get k (x_values out)); [congruence |]. rewrite !zeros_get. destruct (memb k ks), (memb k ks'); congruence.
  Qed.
  (** an invalid number is rejected if there is new physics, but not in the Standard Model, for any of the objects that represent it *)
  Theorem C140_unchecked_refuted (self : option (wcxf V Sc)) (sector name eft basis : string) (scale : Sc) b ks : 
    Basis eft basis = Some b -> wcxf_name sector name -> sector_coeffs b name ks ->
    (no_np truthy self -> exists d, get_wc self sector scale eft basis (Some 7%Z) = Ok d) /\ (~ no_np truthy self -> get_wc self sector scale eft basis (Some 7%Z) = Err ValueError).
  Proof using.
    intros B Nm S. split.
    - intros N. destruct (C137_sm self sector name eft basis scale (Some 7%Z) b ks N B Nm S) as (d & E & _). exists d. exact E.
    - intros N. destruct (coeffs_of b name ks sector Nm S) as (ks' & E & _). unfold get_wc, EFT_Model.get_wc. rewrite B, E. cbn [bind]. destruct self as [w |]; [| exfalso; apply N; exact I].
      assert (T : existsb truthy (map snd (x_values w)) = true) by (destruct (existsb truthy _) eqn:Q; [reflexivity | exfalso; apply N; now apply not_np_dec]). rewrite T. reflexivity.
  Qed.

  (** ** C141: initial values *)
  Variable validate : wcxf V Sc -> result unit.
  Theorem C141_initial (wc : wcxf V Sc) :
    match validate wc with
    | Err e => set_initial_wcxf validate wc = Err e
    | Ok _ => exists self, set_initial_wcxf validate wc = Ok self /\ get_initial_wcxf self = Ok wc
    end /\ get_initial_wcxf (@None (wcxf V Sc)) = Err ValueError.
  Proof using.
    split; [| reflexivity]. unfold set_initial_wcxf, set_initial. destruct wc as [e b s v]. cbn [x_values x_scale x_eft x_basis]. destruct (validate _) as [u | x]; cbn [bind]; [| reflexivity]. eexists. split; reflexivity.
  Qed.
  (** the documentation promises the flavio basis: initial values in another basis are returned in that basis *)
  Theorem C141_basis_refuted (wc : wcxf V Sc) u : validate wc = Ok u -> x_basis wc <> "flavio" -> exists self out, set_initial_wcxf validate wc = Ok self /\ get_initial_wcxf self = Ok out /\ x_basis out <> "flavio".
  Proof using. intros E N. destruct (C141_initial wc) as (A & _). rewrite E in A. destruct A as (self & S & G). exists self, wc. auto. Qed.
End Eft.

(** every name stands for one sector, and WCxf names stand for themselves *)
Theorem C138_unique (sector : string) : exists name, wcxf_name sector name /\ (forall n, wcxf_name sector n -> n = name) /\ wcxf_name name name.
Proof.
  exists (translate sector). refine (conj _ (conj _ _)); [now apply translate_name | intros n N; apply translate_name in N; congruence | apply translate_name; apply translate_twice].
Qed.

(** ** C139: caches *)
Lemma fresh_good {P K R : Type} `{Eqb K} (compute : P -> K -> R) p : good compute (fst (@fresh_object P K R)) (snd (@fresh_object P K R)) p.
Proof. intros k r. cbn. discriminate. Qed.
(** if options and cache are both changed in place or both replaced, predictions never see results for other parameters *)
Theorem C139_predictions_partial {P K R : Type} `{Eqb P} `{Eqb K} (compute : P -> K -> R) (default : P) (in_place : bool) (l : list (@op P K)) : predictions l = true ->
  snd (steps compute default in_place in_place fresh_object l) = expected_all compute default l.
Proof.
  intros Q. destruct in_place.
  - apply (both_steps compute default l (fst (@fresh_object P K R)) (snd (@fresh_object P K R))); [apply fresh_good | exact Q].
  - apply (new_steps compute default l (fst (@fresh_object P K R)) (snd (@fresh_object P K R))); [apply fresh_good | reflexivity | cbn; unfold below; cbn; lia].
Qed.
(** if both are replaced, the owner of the object never notices *)
Theorem C139_owner_partial {P K R : Type} `{Eqb P} `{Eqb K} (compute : P -> K -> R) (default : P) (l : list (@op P K)) :
  snd (steps compute default false false fresh_object l) = expected_all compute default l.
Proof. apply (new_steps compute default l (fst (@fresh_object P K R)) (snd (@fresh_object P K R))); [apply fresh_good | reflexivity | cbn; unfold below; cbn; lia]. Qed.
(** with the same parameters throughout predictions are right, whatever the dependency does *)
Theorem C139_constant {P K R : Type} `{Eqb P} `{Eqb K} (compute : P -> K -> R) (default par : P) (oi ci : bool) (ks : list K) :
  snd (steps compute default oi ci fresh_object (map (Predict par) ks)) = map (fun k => Some (compute par k)) ks.
Proof.
  assert (Q : forall ks h w, good compute h w par -> below h w -> snd (steps compute default oi ci (h, w) (map (Predict par) ks)) = map (fun k => Some (compute par k)) ks).
  { clear ks. intros ks. induction ks as [| k ks IH]; intros h w G B; [reflexivity |]. cbn [map steps]. destruct (const_step compute default oi ci h w par k G B) as (h2 & E & G2 & B2). rewrite E. specialize (IH h2 w G2 B2).
    destruct (steps compute default oi ci (h2, w) _) as [s rs]. cbn [snd] in *. rewrite IH. reflexivity. }
  apply Q; [apply fresh_good | cbn; unfold below; cbn; lia].
Qed.
(** options changed in place, cache replaced: predictions for parameters p, p, q, q return the old result for the last one; conversely p, default fails *)
Theorem C139_stale_refuted :
  let compute := fun (p k : nat) => 10 * p + k in
  (let l := [Predict 1 5; Predict 1 5; Predict 2 5; Predict 2 5] in
   snd (steps compute 0 true false fresh_object l) = [Some 15; Some 15; Some 25; Some 15] /\ expected_all compute 0 l = [Some 15; Some 15; Some 25; Some 25]) /\
  (let l := [Predict 1 5; Predict 0 5] in
   snd (steps compute 0 false true fresh_object l) = [Some 15; Some 15] /\ expected_all compute 0 l = [Some 15; Some 5]).
Proof. vm_compute. repeat split. Qed.
(** options changed in place: a prediction changes what the owner's own calls return *)
Theorem C139_owner_refuted (ci : bool) :
  let compute := fun (p k : nat) => 10 * p + k in
  let l := [Predict 1 5; Own 6] in
  snd (steps compute 0 true ci fresh_object l) = [Some 15; Some 16] /\ expected_all compute 0 l = [Some 15; Some 6].
Proof. destruct ci; vm_compute; repeat split. Qed.

(** hypotheses are met: a basis with two sectors, new physics in one *)
Definition ex_basis (eft basis : string) : option (od string (list string)) :=
  if (eft =? "WET") && (basis =? "flavio") then Some [("sb", ["C7_bs"; "C9_bsmumu"]); ("cbtaunu", ["CVL_bctaunutau"])]
  else if (eft =? "WET-4") && (basis =? "flavio") then Some [("sd", ["C7_sd"])] else None.
Definition ex_run (w : wcxf nat nat) (scale : nat) (eft basis : string) (s : option string) : result (wcxf nat nat) :=
  Ok (WC eft basis scale (match s with Some "sb" => [("C9_bsmumu", 3)] | _ => [] end)).
Example C137_met : let w := WC "WET" "flavio" 160 [("C9_bsmumu", 4)] in let truthy := fun v => negb (Nat.eqb v 0) in
  ~ no_np truthy (Some w) /\ no_np truthy (Some (WC "WET" "flavio" 160 [("C9_bsmumu", 0)])) /\ wcxf_name "bsmumu" "sb" /\ sector_coeffs [("sb", ["C7_bs"; "C9_bsmumu"]); ("cbtaunu", ["CVL_bctaunutau"])] "sb" ["C7_bs"; "C9_bsmumu"] /\
  get_wc 0 truthy ex_basis ex_run (Some w) "bsmumu" 5 "WET" "flavio" None = Ok [("C7_bs", 0); ("C9_bsmumu", 3)] /\
  get_wc 0 truthy ex_basis ex_run None "all" 5 "WET" "flavio" None = Ok [("C7_bs", 0); ("C9_bsmumu", 0); ("CVL_bctaunutau", 0)].
Proof.
  intros w truthy. refine (conj _ (conj _ (conj _ (conj _ (conj eq_refl eq_refl))))).
  - intros N. specialize (N "C9_bsmumu" 4 (or_introl eq_refl)). discriminate.
  - intros k v [[= <- <-] | []]. reflexivity.
  - apply translate_name. vm_compute. reflexivity.
  - right. split; [discriminate | vm_compute; reflexivity].
Qed.
Print Assumptions C137_sm.
Print Assumptions C137_np.
Print Assumptions C137_errors.
Print Assumptions C138_same.
Print Assumptions C138_unique.
Print Assumptions C139_predictions_partial.
Print Assumptions C139_owner_partial.
Print Assumptions C139_constant.
Print Assumptions C139_stale_refuted.
Print Assumptions C139_owner_refuted.
Print Assumptions C140_eft.
Print Assumptions C140_values.
Print Assumptions C140_unchecked_refuted.
Print Assumptions C141_initial.
Print Assumptions C141_basis_refuted.
