(** * Proofs: reading measurements, correlated parameters and particle data *)
From Coq Require Import Reals Lra Lia Permutation.
From Verif Require Import Base BaseLemmas Loading_Model Loading_Spec Loading_Proofs.
Local Open Scope R_scope.

Lemma mapM_iff {X Y} (f : X -> result Y) l : forall ys, mapM f l = Ok ys <-> Forall2 (fun x y => f x = Ok y) l ys.
Proof.
  induction l as [|x l IH]; intro ys; cbn [mapM].
  - split; [intros [= <-]; constructor|]. intro H; inversion H; reflexivity.
  - split.
    + destruct (f x) as [y|] eqn:E; cbn [bind]; [|discriminate]. destruct (mapM f l) as [ys'|] eqn:E'; cbn [bind]; [|discriminate].
      intros [= <-]. constructor; [exact E|]. apply IH. reflexivity.
    + intro H. inversion H as [|? y ? ys' Hy Hys]; subst. rewrite Hy. cbn [bind]. apply IH in Hys. rewrite Hys. reflexivity.
Qed.
Lemma run_steps_iff {A C} (l : list (result (addition A C))) : forall adds,
  run_steps l = (adds, None) <-> Forall2 (fun r a => r = Ok a) l adds.
Proof.
  induction l as [|r l IH]; intro adds; cbn [run_steps].
  - split; [intros [= <-]; constructor|]. intro H; inversion H; reflexivity.
  - split.
    + destruct r as [a|]; [|discriminate]. destruct (run_steps l) as [done e] eqn:E. intros [= <- ->].
      constructor; [reflexivity|]. apply IH. reflexivity.
    + intro H. inversion H as [|? a ? adds' -> Hl]; subst. apply IH in Hl. rewrite Hl. reflexivity.
Qed.
Lemma Forall2_map_l {X Y Z} (g : X -> Y) (P : Y -> Z -> Prop) l l' : Forall2 P (map g l) l' <-> Forall2 (fun x z => P (g x) z) l l'.
Proof.
  revert l'. induction l as [|x l IH]; intro l'; cbn [map]; split; intro H; inversion H; subst; constructor; auto; apply IH; assumption.
Qed.
Lemma Forall2_iff {X Y} (P Q : X -> Y -> Prop) l l' : (forall x y, P x y <-> Q x y) -> Forall2 P l l' <-> Forall2 Q l l'.
Proof.
  intro H. split; intro F; induction F; constructor; auto; apply H; assumption.
Qed.
Lemma F2_length {X Y} (P : X -> Y -> Prop) l l' : Forall2 P l l' -> length l = length l'.
Proof. induction 1; cbn; congruence. Qed.
Lemma Forall2_one {X Y} (P : X -> Y -> Prop) x l' : Forall2 P [x] l' <-> exists y, l' = [y] /\ P x y.
Proof.
  split.
  - intro H. inversion H as [|? y ? l'' Hy Hl]; subst. inversion Hl; subst. eauto.
  - intros (y & -> & Hy). constructor; [exact Hy|constructor].
Qed.
Lemma Forall2_pair {X Y Z} (P : X -> Y -> Prop) (Q : X -> Z -> Prop) l (ps : list (Y * Z)) :
  Forall2 (fun x p => P x (fst p) /\ Q x (snd p)) l ps <-> Forall2 P l (map fst ps) /\ Forall2 Q l (map snd ps).
Proof.
  revert ps. induction l as [|x l IH]; intros [|p ps]; cbn [map]; split.
  - split; constructor.
  - constructor.
  - intro H; inversion H.
  - intros (H & _); inversion H.
  - intro H; inversion H.
  - intros (H & _); inversion H.
  - intro H; inversion H as [|? ? ? ? (Hp & Hq) Hl]; subst. apply IH in Hl as (H1 & H2). split; constructor; assumption.
  - intros (H1 & H2). inversion H1; inversion H2; subst. constructor; [auto|]. apply IH. auto.
Qed.
Lemma square_ext n m m' : square n m -> square n m' -> (forall i j, (i < n)%nat -> (j < n)%nat -> at_ m i j = at_ m' i j) -> m = m'.
Proof.
  intros (H1 & H2) (H3 & H4) He. rewrite Forall_forall in H2, H4.
  apply (nth_eq []); [congruence|]. intros i Hi. apply (nth_eq 0).
  - rewrite H2, H4 by (apply nth_In; lia). reflexivity.
  - intros j Hj. rewrite H2 in Hj by (apply nth_In; lia). apply He; lia.
Qed.

Section LoadProofs.
  Context {A C Text Dist : Type}.
  Variable observable : string -> result (option (list string)).
  Variable from_text : Text -> result C.
  Variable from_dict : Dist -> result C.
  Variable from_values : yvalues A Text Dist -> result C.
  Variable errors_from : yvalue Text Dist -> result errs.
  Variable mvn : list R -> matrix -> result C.
  Notation steps := (steps observable from_text from_dict from_values errors_from mvn).
  Notation written := (written observable from_text from_dict from_values errors_from mvn).

  Lemma obs_tuple_iff name (args : od string A) k : obs_tuple observable name args = Ok k <-> denotes observable name args k.
  Proof.
    unfold obs_tuple, denotes. destruct (observable name) as [[names|]|e]; cbn [bind].
    - split.
      + destruct (mapM _ names) as [vals|] eqn:E; cbn [bind]; [|discriminate]. intros [= <-].
        exists names, vals. split; [reflexivity|]. split; [reflexivity|]. apply mapM_iff in E.
        revert E. apply Forall2_iff. intros a v. destruct (od_get a args); split; intro H; congruence.
      + intros (n' & vals & [= <-] & -> & H).
        assert (E : mapM (fun a => match od_get a args with Some v => Ok v | None => Err KeyError end) names = Ok vals).
        { apply mapM_iff. revert H. apply Forall2_iff. intros a v. destruct (od_get a args); split; intro H; congruence. }
        rewrite E. reflexivity.
    - split; [discriminate|]. intros (? & ? & [=] & _).
    - split; [discriminate|]. intros (? & ? & [=] & _).
  Qed.
  Lemma obs_key_iff (o : yobs A) k : obs_key observable o = Ok k <-> meant observable o k.
  Proof.
    destruct o as [s|name args]; cbn; [split; congruence|apply obs_tuple_iff].
  Qed.
  Lemma value_dist_iff v d : value_dist from_text from_dict v = Ok d <-> dist_of from_text from_dict v d.
  Proof. destruct v; reflexivity. Qed.
  Lemma bind_iff {X Y} (r : result X) (f : X -> result Y) y : bind r f = Ok y <-> exists x, r = Ok x /\ f x = Ok y.
  Proof.
    destruct r as [x|]; cbn [bind]; split.
    - eauto. - intros (x' & [= <-] & H). exact H. - discriminate. - intros (? & [=] & _).
  Qed.
  Lemma correlated_entries_iff (v : yvalues A Text Dist) es : correlated_entries observable errors_from v = Ok es <->
    Forall2 (fun e k => meant observable (fst e) k) (entries v) (map fst es) /\
    Forall2 (fun e x => errors_from (snd e) = Ok x) (entries v) (map snd es).
  Proof.
    rewrite <- Forall2_pair. destruct v as [l|d]; cbn [correlated_entries entries]; rewrite mapM_iff, Forall2_map_l; apply Forall2_iff.
    - intros y [k e]. cbn [fst snd meant]. rewrite bind_iff. split.
      + intros (k' & Ek & E). apply bind_iff in E as (e' & Ee & [= -> ->]). split; [apply obs_tuple_iff, Ek|exact Ee].
      + intros (Hk & He). exists k. split; [apply obs_tuple_iff, Hk|]. apply bind_iff. eauto.
    - intros kv [k e]. cbn [fst snd meant]. rewrite bind_iff. split.
      + intros (e' & Ee & [= <- ->]). auto.
      + intros (-> & He). eauto.
  Qed.
  Lemma total_errors es : map (fun e : okey A * errs => total_error (snd e)) es = map total_error (map snd es).
  Proof. rewrite map_map. reflexivity. Qed.
  Lemma covariance_spec (es : list errs) rho : let n := length es in
    square n (covariance_of (map total_error es) rho) /\
    forall i j, (i < n)%nat -> (j < n)%nat -> at_ (covariance_of (map total_error es) rho) i j =
      sqrt (variance (nth i es (mkErrs 0 [] []))) * sqrt (variance (nth j es (mkErrs 0 [] []))) * at_ rho i j.
  Proof.
    cbv zeta. unfold covariance_of. rewrite map_length. split; [apply build_square|]. intros i j Hi Hj. rewrite at_entry, nth_build by assumption.
    assert (H : forall i, (i < length es)%nat -> nth i (map total_error es) 0 = sqrt (variance (nth i es (mkErrs 0 [] [])))).
    { intros k Hk. rewrite nth_indep with (d' := total_error (mkErrs 0 [] [])) by (rewrite map_length; exact Hk).
      rewrite map_nth. unfold total_error. rewrite squared_error_spec. reflexivity. }
    rewrite !H by assumption. reflexivity.
  Qed.

  Lemma written_iff m adds : run_steps (steps m) = (adds, None) <-> written m adds.
  Proof.
    rewrite run_steps_iff. destruct m as [attrs [obs|] [c|] values|]; cbn [Loading_Model.steps Loading_Spec.written].
    1,2: (rewrite Forall2_one; split;
      [ intros (a & -> & E); apply bind_iff in E as (d & Ed & E); apply bind_iff in E as (ks & Ek & [= <-]);
        destruct values as [v|]; [|discriminate]; exists v, ks, d; split; [reflexivity|]; split; [exact Ed|]; split; [|reflexivity];
        apply mapM_iff in Ek; revert Ek; apply Forall2_iff; intros o k; first [apply obs_key_iff | symmetry; apply obs_key_iff]
      | intros (v & ks & d & -> & Ed & Hk & ->); exists (ks, d); split; [reflexivity|]; rewrite Ed; cbn [bind];
        assert (Ek : mapM (obs_key observable) obs = Ok ks) by (apply mapM_iff; revert Hk; apply Forall2_iff; intros o k; first [apply obs_key_iff | symmetry; apply obs_key_iff]);
        rewrite Ek; reflexivity]).
    - destruct values as [v|].
      2:{ rewrite Forall2_one. split; [intros (? & _ & [=])|]. intros (? & ? & ? & ? & ? & ? & [=] & _). }
      rewrite Forall2_one. split.
      + intros (a & -> & E). unfold correlated in E. apply bind_iff in E as (es & Ees & E). apply bind_iff in E as (rho & Erho & E).
        apply bind_iff in E as (d & Ed & [= <-]). apply correlated_entries_iff in Ees as (H1 & H2).
        rewrite total_errors in Ed. rewrite <- (map_length snd es) in Erho.
        destruct (covariance_spec (map snd es) rho) as (Hs & Hc).
        exists v, (map fst es), (map snd es), rho, (covariance_of (map total_error (map snd es)) rho), d.
        split; [reflexivity|]. split; [exact H1|]. split; [exact H2|]. split; [exact Erho|]. split; [exact Hs|]. split; [exact Hc|].
        split; [rewrite map_map; exact Ed|reflexivity].
      + intros (v' & ks & es & rho & cov & d & [= <-] & H1 & H2 & Erho & Hs & Hc & Ed & ->).
        exists (ks, d). split; [reflexivity|]. unfold correlated.
        assert (Hlen : length ks = length es) by (rewrite <- (F2_length _ _ _ H1), <- (F2_length _ _ _ H2); reflexivity).
        assert (E1 : map fst (List.combine ks es) = ks).
        { clear -Hlen. revert es Hlen. induction ks as [|k ks IH]; intros [|e es] Hl; try discriminate; [reflexivity|]. cbn. rewrite IH by (cbn in Hl; lia). reflexivity. }
        assert (E2 : map snd (List.combine ks es) = es).
        { clear -Hlen. revert es Hlen. induction ks as [|k ks IH]; intros [|e es] Hl; try discriminate; [reflexivity|]. cbn. rewrite IH by (cbn in Hl; lia). reflexivity. }
        assert (Ees : correlated_entries observable errors_from v = Ok (List.combine ks es)).
        { apply correlated_entries_iff. rewrite E1, E2. auto. }
        rewrite Ees. cbn [bind]. rewrite <- (map_length snd), E2, Erho. cbn [bind]. rewrite total_errors, E2.
        destruct (covariance_spec es rho) as (Hs' & Hc').
        assert (Ecov : covariance_of (map total_error es) rho = cov).
        { apply (square_ext (length es)); [exact Hs'|exact Hs|]. intros i j Hi Hj. rewrite Hc', Hc by assumption. reflexivity. }
        rewrite Ecov. rewrite <- (map_map snd e_central), E2, Ed. cbn [bind]. rewrite E1. reflexivity.
    - destruct values as [v|].
      2:{ rewrite Forall2_one. split; [intros (? & _ & [=])|]. intros (? & [=] & _). }
      split.
      + intro H. exists v. split; [reflexivity|]. destruct v as [l|d]; rewrite Forall2_map_l in H; cbn [entries]; rewrite Forall2_map_l; revert H; apply Forall2_iff.
        * intros y a. cbn [fst snd meant]. split.
          -- intros (k & d & -> & Hk & Hd). apply bind_iff. exists k. split; [apply obs_tuple_iff, Hk|]. apply bind_iff. exists d. split; [apply value_dist_iff, Hd|reflexivity].
          -- intro E. apply bind_iff in E as (k & Ek & E). apply bind_iff in E as (d & Ed & [= <-]). exists k, d. split; [reflexivity|]. split; [apply obs_tuple_iff, Ek|apply value_dist_iff, Ed].
        * intros y a. cbn [fst snd meant]. split.
          -- intros (k & d' & -> & -> & Hd). apply bind_iff. exists d'. split; [apply value_dist_iff, Hd|reflexivity].
          -- intro E. apply bind_iff in E as (d' & Ed & [= <-]). exists (KName (fst y)), d'. split; [reflexivity|]. split; [reflexivity|apply value_dist_iff, Ed].
      + intros (v' & [= <-] & H). destruct v as [l|d]; rewrite Forall2_map_l; cbn [entries] in H; rewrite Forall2_map_l in H; revert H; apply Forall2_iff.
        * intros y a. cbn [fst snd meant]. split.
          -- intro E. apply bind_iff in E as (k & Ek & E). apply bind_iff in E as (d & Ed & [= <-]). exists k, d. split; [reflexivity|]. split; [apply obs_tuple_iff, Ek|apply value_dist_iff, Ed].
          -- intros (k & d & -> & Hk & Hd). apply bind_iff. exists k. split; [apply obs_tuple_iff, Hk|]. apply bind_iff. exists d. split; [apply value_dist_iff, Hd|reflexivity].
        * intros y a. cbn [fst snd meant]. split.
          -- intro E. apply bind_iff in E as (d' & Ed & [= <-]). exists (KName (fst y)), d'. split; [reflexivity|]. split; [reflexivity|apply value_dist_iff, Ed].
          -- intros (k & d' & -> & -> & Hd). apply bind_iff. exists d'. split; [apply value_dist_iff, Hd|reflexivity].
    - rewrite Forall2_one. split; [intros (? & _ & [=])|intros []].
  Qed.

  Notation load_all := (load_all observable from_text from_dict from_values errors_from mvn).
  Lemma load_all_spec l : forall reg reg', NoDup (map fst l) -> load_all l reg = (reg', Ok tt) ->
    (forall name m, In (name, m) l -> exists adds, written m adds /\ od_get name reg' = Some (attributes m, adds)) /\
    (forall name, ~ In name (map fst l) -> od_get name reg' = od_get name reg).
  Proof.
    induction l as [|[n0 m0] l IH]; intros reg reg' Hnd; cbn [Loading_Model.load_all].
    - intros [= <-]. split; [intros ? ? []|reflexivity].
    - destruct (run_steps (steps m0)) as [done [e|]] eqn:E; [discriminate|]. intro H. cbn [map fst] in Hnd.
      inversion Hnd as [|? ? Hn Hnd']; subst. destruct (IH _ _ Hnd' H) as (H1 & H2). apply written_iff in E. split.
      + intros name m [Heq|Hin]; [|apply H1, Hin]. injection Heq as <- <-. exists done. split; [exact E|].
        rewrite (H2 n0 Hn). rewrite od_get_set_eq. reflexivity.
      + intros name Hnn. cbn [map fst In] in Hnn. rewrite H2 by tauto. rewrite od_get_set_ne; [reflexivity|]. intro; apply Hnn; left; congruence.
  Qed.
  Lemma load_all_succeeds l : forall reg, (forall name m, In (name, m) l -> exists adds, written m adds) ->
    exists reg', load_all l reg = (reg', Ok tt).
  Proof.
    induction l as [|[n0 m0] l IH]; intros reg H; cbn [Loading_Model.load_all]; [eauto|].
    destruct (H n0 m0 (or_introl eq_refl)) as (adds & Ha). apply written_iff in Ha. rewrite Ha.
    apply IH. intros name m Hin. apply (H name m). right. exact Hin.
  Qed.
  Lemma load_all_converse l : forall reg reg', load_all l reg = (reg', Ok tt) ->
    forall name m, In (name, m) l -> exists adds, written m adds.
  Proof.
    induction l as [|[n0 m0] l IH]; intros reg reg'; cbn [Loading_Model.load_all]; [intros _ ? ? []|].
    destruct (run_steps (steps m0)) as [done [e|]] eqn:E; [discriminate|]. intros H name m [Heq|Hin].
    - injection Heq as <- <-. exists done. apply written_iff, E.
    - eapply IH; eassumption.
  Qed.
  (** a measurement that fails is registered nevertheless *)
  Lemma load_all_fails n m l reg e done : run_steps (steps m) = (done, Some e) ->
    load_all ((n, m) :: l) reg = (od_set n (attrs_of m, done) reg, Err e).
  Proof. intro E. cbn [Loading_Model.load_all]. rewrite E. reflexivity. Qed.
End LoadProofs.

(** ** Correlated parameters *)
Lemma parameter_covariance_spec positive (es : list errs) rho cov : square (length es) rho -> unit_diagonal (length es) rho ->
  parameter_covariance positive (map total_error es) rho = Ok cov ->
  exists f, (f = 1 \/ f = 0.99) /\ square (length es) cov /\ positive cov = true /\
    forall i j, (i < length es)%nat -> (j < length es)%nat ->
      at_ cov i j = sqrt (variance (nth i es (mkErrs 0 [] []))) * sqrt (variance (nth j es (mkErrs 0 [] []))) *
                    (if Nat.eqb i j then 1 else f * at_ rho i j).
Proof.
  intros Hs Hu. unfold parameter_covariance. destruct (positive (covariance_of (map total_error es) rho)) eqn:E1.
  - intros [= <-]. destruct (covariance_spec es rho) as (Hc1 & Hc2). exists 1. split; [auto|]. split; [exact Hc1|]. split; [exact E1|].
    intros i j Hi Hj. rewrite Hc2 by assumption. destruct (Nat.eqb_spec i j) as [->|]; [rewrite Hu by assumption; ring|ring].
  - destruct (positive (covariance_of (map total_error es) (shrink (length rho) rho))) eqn:E2; [|discriminate]. intros [= <-].
    destruct (covariance_spec es (shrink (length rho) rho)) as (Hc1 & Hc2). exists 0.99. split; [auto|]. split; [exact Hc1|]. split; [exact E2|].
    intros i j Hi Hj. rewrite Hc2 by assumption. destruct Hs as (Hl & _). rewrite Hl. unfold shrink. rewrite (at_entry (build _ _)), nth_build by assumption.
    rewrite <- at_entry. unfold eye. destruct (Nat.eqb_spec i j) as [->|]; [rewrite Hu by assumption; f_equal; lra|f_equal; lra].
Qed.

(** ** Particles *)
Lemma pdg_inv_spec z n : od_get z pdg_inv = Some n <-> In (n, z) pdg_particles.
Proof.
  split.
  - intro H. assert (Hin : In (z, n) pdg_inv) by (apply od_get_Some_In; exact H). 
    assert (E : pdg_inv = map (fun kv => (snd kv, fst kv)) pdg_particles) by (vm_compute; reflexivity).
    rewrite E in Hin. apply in_map_iff in Hin as ([n' z'] & [= -> ->] & Hin). exact Hin.
  - intro H. assert (Hall : forallb (fun kv => match od_get (snd kv) pdg_inv with Some n => String.eqb n (fst kv) | None => false end) pdg_particles = true) by (vm_compute; reflexivity).
    rewrite forallb_forall in Hall. specialize (Hall _ H). cbn [fst snd] in Hall.
    destruct (od_get z pdg_inv); [|discriminate]. apply String.eqb_eq in Hall. congruence.
Qed.

Definition step_pdg (r : result (od string pdg_constraint)) (d : string * (R * R * R)) : result (od string pdg_constraint) :=
  do c <- r; do pd <- pdg_dist (snd d); Ok (od_set (fst d) pd (od_pop (fst d) c)).
Lemma fold_pdg_err ds e : fold_left step_pdg ds (Err e) = Err e.
Proof. induction ds as [|d ds IH]; [reflexivity|]. exact IH. Qed.
Lemma fold_pdg ds : NoDup (map fst ds) -> forall cons cons', fold_left step_pdg ds (Ok cons) = Ok cons' ->
  (forall n v, In (n, v) ds -> exists pd, pdg_dist v = Ok pd /\ od_get n cons' = Some pd) /\
  (forall n, ~ In n (map fst ds) -> od_get n cons' = od_get n cons).
Proof.
  induction ds as [|[n0 v0] ds IH]; intros Hnd cons cons'.
  - intros [= <-]. split; [intros ? ? []|reflexivity].
  - cbn [fold_left]. unfold step_pdg at 2. cbn [bind fst snd]. destruct (pdg_dist v0) as [pd|e] eqn:E; cbn [bind]; [|rewrite fold_pdg_err; discriminate].
    intro H. cbn [map fst] in Hnd. inversion Hnd as [|? ? Hn Hnd']; subst. destruct (IH Hnd' _ _ H) as (H1 & H2). split.
    + intros n v [Heq|Hin]; [|apply H1, Hin]. injection Heq as <- <-. exists pd. split; [exact E|]. rewrite H2 by exact Hn. apply od_get_set_eq.
    + intros n Hnn. cbn [map fst In] in Hnn. rewrite H2 by tauto. assert (n <> n0) by (intro; apply Hnn; left; congruence).
      rewrite od_get_set_ne, od_get_pop_ne by assumption. reflexivity.
Qed.
Lemma fold_pdg_ok ds : forall cons, (exists cons', fold_left step_pdg ds (Ok cons) = Ok cons') <-> (forall n v, In (n, v) ds -> exists pd, pdg_dist v = Ok pd).
Proof.
  induction ds as [|[n0 v0] ds IH]; intro cons; cbn [fold_left].
  - split; [intros _ ? ? []|]. intros _. eauto.
  - unfold step_pdg at 2. cbn [bind fst snd]. destruct (pdg_dist v0) as [pd|e] eqn:E; cbn [bind].
    + rewrite IH. split.
      * intros H n v [Heq|Hin]; [injection Heq as <- <-; eauto|eapply H, Hin].
      * intros H n v Hin. eapply H. right. exact Hin.
    + rewrite fold_pdg_err. split; [intros (? & [=])|]. intro H. destruct (H n0 v0 (or_introl eq_refl)) as (pd & E'). congruence.
Qed.

Lemma append_inj a b c : append a b = append a c -> b = c.
Proof. induction a as [|x a IH]; [auto|]. cbn. intros [= H]. auto. Qed.
Lemma pdg_data_names p n v : In (n, v) (pdg_data p) ->
  exists name, In (name, p_id p) pdg_particles /\
    (n = append "m_" name /\ v = (p_mass p * 1e-3, p_mass_upper p * 1e-3, p_mass_lower p * 1e-3) \/
     n = append "tau_" name /\ exists w u l, p_width p = Some w /\ p_width_upper p = Some u /\ p_width_lower p = Some l /\
       w <> 0 /\ u <> 0 /\ l <> 0 /\ v = (1 / (w * 1e-3), u * 1e-3 / (w * 1e-3) ^ 2, l * 1e-3 / (w * 1e-3) ^ 2))%string.
Proof.
  unfold pdg_data. destruct (flavio_name p) as [name|] eqn:En; [|intros []]. apply pdg_inv_spec in En.
  intro H. exists name. split; [exact En|]. destruct H as [H|H].
  - left. unfold flavio_m in H. injection H as <- <-. auto.
  - right. unfold flavio_tau in H. destruct (p_width p) as [w|], (p_width_upper p) as [u|], (p_width_lower p) as [l|]; try (destruct H; fail).
    destruct (Req_EM_T w 0); [destruct H|]. destruct (Req_EM_T u 0); [destruct H|]. destruct (Req_EM_T l 0); [destruct H|].
    destruct H as [H|[]]. injection H as <- <-. split; [reflexivity|]. exists w, u, l. repeat split; auto.
Qed.
Lemma pdg_inj n z z' : In (n, z) pdg_particles -> In (n, z') pdg_particles -> z = z'.
Proof.
  intros H H'. assert (Hnd : NoDup (map fst pdg_particles)).
  { assert (E : dedup (map fst pdg_particles) = map fst pdg_particles) by (vm_compute; reflexivity). rewrite <- E. apply dedup_NoDup. }
  clear -H H' Hnd. revert H H'. generalize pdg_particles Hnd. intro l. induction l as [|[a b] l IH]; intros Hn H H'; [destruct H|].
  cbn [map fst] in Hn. inversion Hn as [|? ? Hna Hn']; subst.
  assert (Hnotin : forall x, In (a, x) l -> False) by (intros x Hx; apply Hna; apply in_map_iff; exists (a, x); auto).
  destruct H as [H|H], H' as [H'|H'].
  - congruence.
  - injection H as <- <-. exfalso; eauto.
  - injection H' as <- <-. exfalso; eauto.
  - eauto.
Qed.
Lemma pdg_data_nodup l : NoDup (map p_id l) -> NoDup (map fst (flat_map pdg_data l)).
Proof.
  induction l as [|p l IH]; intro H; cbn [flat_map map] in *; [constructor|]. inversion H as [|? ? Hn Hnd]; subst.
  rewrite map_app.
  assert (Hp : NoDup (map fst (pdg_data p))).
  { unfold pdg_data. destruct (flavio_name p) as [n|]; [|constructor]. cbn [map]. constructor.
    - unfold flavio_tau. destruct (p_width p), (p_width_upper p), (p_width_lower p); try (intros []; fail).
      repeat (destruct (Req_EM_T _ 0); [intros []|]). cbn [map fst flavio_m]. intros [E|[]]. discriminate.
    - destruct (flavio_tau n p); repeat constructor; intros []. }
  assert (Hdis : forall x, In x (map fst (pdg_data p)) -> In x (map fst (flat_map pdg_data l)) -> False).
  { intros x Hx Hx'. apply in_map_iff in Hx as ([n v] & E & Hx). apply in_map_iff in Hx' as ([n' v'] & E' & Hx'). cbn in E, E'. subst n n'.
    apply in_flat_map in Hx' as (q & Hq & Hx'). apply pdg_data_names in Hx as (n1 & H1 & H1'). apply pdg_data_names in Hx' as (n2 & H2 & H2').
    assert (n1 = n2).
    { destruct H1' as [(E1 & _)|(E1 & _)], H2' as [(E2 & _)|(E2 & _)]; rewrite E1 in E2; try discriminate; eapply append_inj, E2. }
    subst n2. assert (p_id p = p_id q) by (eapply pdg_inj; eassumption). apply Hn. rewrite H0. apply in_map, Hq. }
  clear -Hp Hdis IH Hnd. specialize (IH Hnd). revert Hp Hdis. generalize (map fst (pdg_data p)) as a. induction a as [|x a IHa]; intros Ha Hd; [exact IH|].
  cbn [app]. inversion Ha as [|? ? Hx Ha']; subst. constructor.
  - intro Hin. apply in_app_or in Hin as [Hin|Hin]; [contradiction|]. apply (Hd x); [left; reflexivity|exact Hin].
  - apply IHa; [exact Ha'|]. intros y Hy. apply Hd. right. exact Hy.
Qed.
Lemma pdg_dist_ok c r l : (exists pd, pdg_dist (c, r, l) = Ok pd) <-> 0 < r /\ 0 < l.
Proof.
  unfold pdg_dist. destruct (Req_EM_T r l) as [->|].
  - destruct (Rle_dec l 0); split; [intros (? & [=])|lra|lra|eauto].
  - destruct (Rle_dec r 0); [split; [intros (? & [=])|lra]|]. destruct (Rle_dec l 0); split; [intros (? & [=])|lra|lra|eauto].
Qed.
