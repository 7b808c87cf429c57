(** * Theorems about the readers of measurement and parameter files: C46, C92-C97 *)
From Coq Require Import Reals Lra Lia Permutation.
From Verif Require Import Base BaseLemmas Loading_Model Loading_Spec Loading_Proofs Loading_Proofs2.
Local Open Scope R_scope.

(** ** C46: correlation matrices are completed correctly *)
(** a number stands for all elements off the diagonal *)
Theorem C46_number x n : exists m, fix_correlation_matrix (CNum x) n = Ok m /\ square n m /\
  forall i j, (i < n)%nat -> (j < n)%nat -> at_ m i j = if Nat.eqb i j then 1 else x.
Proof. apply fix_scalar. Qed.
Print Assumptions C46_number.
(** the upper right triangle is mirrored, if it is zero or not entirely negligible *)
Theorem C46_triangle n u : triangle n u ->
  (exists i j, (i < j < n)%nat /\ Rabs (above u i j) > 1e-8) \/ (forall i j, (i < j < n)%nat -> above u i j = 0) ->
  exists m, fix_correlation_matrix (CList (map Row u)) n = Ok m /\ square n m /\
    forall i j, (i <= j < n)%nat -> at_ m i j = above u i j /\ at_ m j i = above u i j.
Proof. apply fix_triangle. Qed.
Print Assumptions C46_triangle.
(** a symmetric matrix is kept *)
Theorem C46_symmetric n f : square n f -> unit_diagonal n f -> symmetric n f -> fix_correlation_matrix (CList (map Row f)) n = Ok f.
Proof. apply fix_full. Qed.
Print Assumptions C46_symmetric.
(** what is accepted: the right number of lines, each of them full or beginning at the diagonal, ones on the diagonal *)
Theorem C46_accepted rows n :
  ((exists m, fix_correlation_matrix (CList rows) n = Ok m) <-> length rows = n /\ forall i, (i < n)%nat -> good_line n i (nth i rows NoRow)) /\
  (forall m, fix_correlation_matrix (CList rows) n = Ok m -> square n m /\ unit_diagonal n m) /\
  (forall e, fix_correlation_matrix (CList rows) n = Err e -> e = ValueError \/ e = TypeError /\ In NoRow rows) /\
  fix_correlation_matrix COther n = Err TypeError /\ fix_correlation_matrix (CText None) n = Err ValueError.
Proof.
  split; [apply fix_list_success|]. split; [intros m; apply fix_list_shape|]. split; [intros e; apply fix_list_error|]. split; reflexivity.
Qed.
Print Assumptions C46_accepted.
Example C46_triangle_instance : let u := [[1; 0.1; 0.2]; [1; 0.3]; [1]] in
  triangle 3 u /\ (exists i j, (i < j < 3)%nat /\ Rabs (above u i j) > 1e-8) /\ above u 1 2 = 0.3.
Proof.
  cbv zeta. split; [|split].
  - split; [reflexivity|]. intros [|[|[|i]]] Hi; try (cbn; split; [reflexivity|reflexivity]); lia.
  - exists 0%nat, 1%nat. split; [lia|]. unfold above. cbn. rewrite Rabs_right; lra.
  - reflexivity.
Qed.
Example C46_symmetric_instance : let f := [[1; 0.5]; [0.5; 1]] in square 2 f /\ unit_diagonal 2 f /\ symmetric 2 f.
Proof.
  cbv zeta. split; [|split].
  - split; [reflexivity|repeat constructor].
  - intros [|[|i]] Hi; try reflexivity; lia.
  - intros [|[|i]] [|[|j]] Hi Hj; try reflexivity; lia.
Qed.

(** ** C92 (fails): what is returned is a symmetric matrix with the given elements *)
(** Different values above and below the diagonal are added; a negligible triangle is not mirrored, so that
    the result is not symmetric; the example in the documentation is rejected. *)
Theorem C92_correlation_refuted :
  (forall a b, 1e-8 + 1e-5 * Rabs b < Rabs (a - b) ->
     fix_correlation_matrix (CList [Row [1; a]; Row [b; 1]]) 2 = Ok [[1; a + b]; [a + b; 1]]) /\
  (forall x, Rabs x <= 1e-8 -> fix_correlation_matrix (CList [Row [1; x]; Row [1]]) 2 = Ok [[1; x]; [0; 1]]) /\
  fix_correlation_matrix (CList [Row [1; 0.1; 0.2]; Row [1; 0.3]; Row [1; 0.05]]) 3 = Err ValueError.
Proof.
  split; [|split].
  - intros a b Hab. unfold fix_correlation_matrix. cbn [length Nat.eqb negb fix_lines fix_line nth Nat.sub].
    destruct (Req_EM_T 1 1) as [_|]; [|lra]. cbn [bind].
    destruct (allclose _ _ _) eqn:E.
    + pose proof (proj1 (allclose_spec 2 _ _) E) as H. cbv beta in H. specialize (H 0%nat 1%nat ltac:(lia) ltac:(lia)).
      unfold entry in H. cbn [nth] in H. lra.
    + unfold build, entry. cbn [seq map nth Nat.eqb].
      replace (1 + 1 - 1) with 1 by ring. replace (a + b - 0) with (a + b) by ring. replace (b + a - 0) with (a + b) by ring. reflexivity.
  - intros x Hx. unfold fix_correlation_matrix. cbn [length Nat.eqb negb fix_lines fix_line nth Nat.sub].
    destruct (Req_EM_T 1 1) as [_|]; [|lra]. cbn [bind repeat app].
    rewrite (proj2 (allclose_spec 2 _ _)); [reflexivity|]. unfold entry. pose proof (Rabs_pos x).
    intros [|[|i]] [|[|j]] Hi Hj; try lia; cbn [nth]; rewrite ?Rminus_0_r, ?Rabs_R0, ?Rabs_R1, ?Rminus_diag_eq, ?Rabs_R0 by reflexivity; try lra.
    replace (0 - x) with (- x) by ring. rewrite Rabs_Ropp. lra.
  - unfold fix_correlation_matrix. cbn [length Nat.eqb negb fix_lines fix_line nth Nat.sub].
    destruct (Req_EM_T 1 1) as [_|]; [|lra]. reflexivity.
Qed.
Print Assumptions C92_correlation_refuted.
Example C92_instance : 1e-8 + 1e-5 * Rabs 0.3 < Rabs (0.9 - 0.3). Proof. rewrite !Rabs_right; lra. Qed.

(** ** C93: measurements are loaded as written *)
Section C93.
  Context {A C Text Dist : Type}.
  Variable observable : string -> result (option (list string)).
  Variable from_text : Text -> result C.
  Variable from_dict : Dist -> result C.
  Variable from_values : yvalues A Text Dist -> result C.
  Variable errors_from : yvalue Text Dist -> result errs.
  Variable mvn : list R -> matrix -> result C.
  Notation written := (written observable from_text from_dict from_values errors_from mvn).
  Notation load_old := (load_old observable from_text from_dict from_values errors_from mvn).
  Notation read_file := (read_file observable from_text from_dict from_values errors_from mvn).
  Theorem C93_loaded_as_written l reg : NoDup (map fst l) ->
    ((exists reg' names, load_old l reg = (reg', Ok names)) <-> (forall name m, In (name, m) l -> exists adds, written m adds)) /\
    (forall reg' names, load_old l reg = (reg', Ok names) ->
       names = map fst l /\
       (forall name m, In (name, m) l -> exists adds, written m adds /\ od_get name reg' = Some (attributes m, adds)) /\
       (forall name, ~ In name (map fst l) -> od_get name reg' = od_get name reg)) /\
    read_file (FOld l) reg = load_old l reg.
  Proof.
    intro Hnd. split; [|split; [|reflexivity]].
    - unfold Loading_Model.load_old. split.
      + intros (reg' & names & E). destruct (load_all _ _ _ _ _ _ l reg) as [r [[]|e]] eqn:El; [|discriminate].
        eapply load_all_converse, El.
      + intro H. destruct (load_all_succeeds observable from_text from_dict from_values errors_from mvn l reg H) as (reg' & E).
        rewrite E. cbn [bind]. eauto.
    - intros reg' names E. unfold Loading_Model.load_old in E. destruct (load_all _ _ _ _ _ _ l reg) as [r [[]|e]] eqn:El; [|discriminate].
      injection E as <- <-. destruct (load_all_spec _ _ _ _ _ _ l _ _ Hnd El) as (H1 & H2). auto.
  Qed.
  (** what is written determines the constraints *)
  Theorem C93_unambiguous m adds adds' : written m adds -> written m adds' -> adds = adds'.
  Proof. intros H H'. apply written_iff in H. apply written_iff in H'. congruence. Qed.
  (** The same for files in the new format: a single measurement and a list of measurements. *)
  Lemma load_news_ok : forall l reg names, map (@n_name A C Text Dist) l = map Some names -> NoDup names ->
    (forall d, In d l -> exists adds, n_entries d = map Ok adds) ->
    exists reg', load_news l reg = (reg', Ok names) /\
      (forall d name, In d l -> n_name d = Some name -> exists adds, n_entries d = map Ok adds /\ od_get name reg' = Some (n_attrs d, adds)) /\
      (forall name, ~ In name names -> od_get name reg' = od_get name reg).
  Proof.
    induction l as [|d l IH]; intros reg [|n names] E Hnd H; try discriminate.
    - exists reg. repeat split; auto. intros ? ? [].
    - cbn [map] in E. injection E as E1 E2. inversion Hnd as [|? ? Hn Hnd']; subst.
      destruct (H d (or_introl eq_refl)) as (adds & Ha).
      cbn [load_news]. unfold load_new1. rewrite E1, Ha.
      assert (Er : run_steps (map Ok adds) = (adds, None)) by (apply run_steps_iff; clear; induction adds; constructor; auto).
      rewrite Er.
      destruct (IH (od_set n (n_attrs d, adds) reg) names E2 Hnd') as (reg' & El & H1 & H2); [intros; apply H; now right|].
      exists reg'. rewrite El. cbn [bind]. split; [reflexivity|]. split.
      + intros d' name [<-|Hin] En.
        * rewrite E1 in En. injection En as <-. exists adds. split; [exact Ha|]. rewrite H2 by exact Hn. apply od_get_set_eq.
        * now apply H1.
      + intros name Hnot. rewrite H2 by (intro; apply Hnot; now right). apply od_get_set_ne. intros <-. apply Hnot. now left.
  Qed.
  Theorem C93_new_format l reg names : map (@n_name A C Text Dist) l = map Some names -> NoDup names ->
    (forall d, In d l -> exists adds, n_entries d = map Ok adds) ->
    exists reg', read_file (FNewList l) reg = (reg', Ok names) /\
      (forall d name, In d l -> n_name d = Some name -> exists adds, n_entries d = map Ok adds /\ od_get name reg' = Some (n_attrs d, adds)) /\
      (forall name, ~ In name names -> od_get name reg' = od_get name reg) /\
      (forall d, l = [d] -> read_file (FNew d) reg = (reg', Ok names)).
  Proof.
    intros E Hnd H. destruct (load_news_ok l reg names E Hnd H) as (reg' & El & H1 & H2). exists reg'.
    unfold Loading_Model.read_file, load_new. rewrite El. repeat split; auto. intros d ->. now rewrite El.
  Qed.
End C93.
Print Assumptions C93_new_format.
Print Assumptions C93_loaded_as_written.
Print Assumptions C93_unambiguous.
Example C93_instance :
  let obs := fun n => if String.eqb n "dBR"%string then Ok (Some ["q2min"; "q2max"]%string) else Err KeyError in
  let w := written (A := nat) (C := unit) (Text := unit) (Dist := unit) obs (fun _ => Ok tt) (fun _ => Ok tt) (fun _ => Ok tt)
             (fun _ => Ok (mkErrs 1 [3; 4] [])) (fun _ _ => Ok tt) in
  w (MDict [] None (Some (CNum 0.5)) (Some (VList [mkEntry "dBR"%string [("q2max"%string, 6%nat); ("q2min"%string, 1%nat)] (YText tt)])))
    [([KArgs "dBR"%string [1%nat; 6%nat]], tt)].
Proof.
  cbv zeta. apply written_iff. reflexivity.
Qed.

(** ** C94 (fails): a file that cannot be read leaves the measurements unchanged and reports the problem *)
(** A measurement with an error replaces an existing one of the same name by the incomplete new one; for a
    list in the new format the exception is always AttributeError, and the measurements before the error
    are kept; a single measurement in the new format is replaced by an incomplete one and, in addition, a measurement
    named like the first entry of the dictionary is created. *)
Theorem C94_failed_load_refuted {A C Text Dist} observable from_text from_dict from_values errors_from mvn
    (reg : registry A C) name a old e :
  od_get name reg = Some old ->
  (let f : file A C Text Dist := FOld [(name, MDict a None None None)] in
   exists reg', read_file observable from_text from_dict from_values errors_from mvn f reg = (reg', Err KeyError) /\
     od_get name reg' = Some (filter (fun kv => memb (fst kv) metadata) a, [])) /\
  (forall adds items, exists reg',
     read_file observable from_text from_dict from_values errors_from mvn (FNewList (Text := Text) (Dist := Dist) [mkN (Some name) a (map Ok adds ++ [Err e]) items]) reg = (reg', Err AttributeError) /\
     od_get name reg' = Some (a, adds)) /\
  (forall adds attrs others, name <> "arguments"%string -> exists reg',
     read_file observable from_text from_dict from_values errors_from mvn
       (FNew (Text := Text) (Dist := Dist) (mkN (Some name) a (map Ok adds ++ [Err e]) (("arguments"%string, MDict attrs None None None) :: others))) reg = (reg', Err KeyError) /\
     od_get name reg' = Some (a, adds) /\ od_get "arguments"%string reg' = Some (filter (fun kv => memb (fst kv) metadata) attrs, [])).
Proof.
  intro Hold. assert (Hrun : forall adds : list (addition A C), run_steps (map Ok adds ++ [Err e]) = (adds, Some e)).
  { induction adds as [|x adds IH]; [reflexivity|]. cbn [map app run_steps]. rewrite IH. reflexivity. }
  split; [|split].
  - eexists. split; [reflexivity|]. apply od_get_set_eq.
  - intros adds items. eexists. split.
    + unfold read_file, load_new, load_news, load_new1. cbn [n_name n_entries n_attrs]. rewrite Hrun. reflexivity.
    + apply od_get_set_eq.
  - intros adds attrs others Hn. eexists. split; [|split].
    + unfold read_file, load_new, load_news, load_new1. cbn [n_name n_entries n_attrs n_items]. rewrite Hrun. reflexivity.
    + rewrite od_get_set_ne by exact Hn. apply od_get_set_eq.
    + apply od_get_set_eq.
Qed.
Print Assumptions C94_failed_load_refuted.
Example C94_instance : exists reg, od_get "arguments-free name"%string reg = Some ([] : od string string, [([KName "obs"%string], 1%nat)] : list (addition nat nat)).
Proof. exists [("arguments-free name"%string, ([], [([KName "obs"%string], 1%nat)]))]. reflexivity. Qed.

(** ** C95: correlated parameters *)
(** The covariance has the total variances on the diagonal and the given correlations off the diagonal, all
    of them multiplied by one or all of them by 0.99; it is accepted only if positive. *)
Lemma fix_shape c n rho : fix_correlation_matrix c n = Ok rho -> square n rho /\ unit_diagonal n rho.
Proof.
  destruct c as [x|[x|]|rows|]; try discriminate; [| |apply fix_list_shape];
    (intro H; destruct (fix_scalar x n) as (m & E & Hs & Hm); assert (rho = m) by (cbn in H, E; congruence); subst m;
     split; [exact Hs|]; intros i Hi; rewrite Hm, Nat.eqb_refl by exact Hi; reflexivity).
Qed.
Theorem C95_correlated_parameters {C} exists_parameter positive (mvn : list R -> matrix -> result C) l c names d :
  parameter_group exists_parameter positive mvn l c = Ok (names, d) ->
  exists es rho cov f,
    names = map fst l /\ Forall2 (fun x e => exists_parameter (fst x) = true /\ snd x = Ok e) l es /\
    fix_correlation_matrix c (length es) = Ok rho /\ mvn (map e_central es) cov = Ok d /\
    (f = 1 \/ f = 0.99) /\ square (length es) cov /\ positive cov = true /\
    (forall i j, (i < length es)%nat -> (j < length es)%nat ->
      at_ cov i j = sqrt (variance (nth i es (mkErrs 0 [] []))) * sqrt (variance (nth j es (mkErrs 0 [] []))) *
                    (if Nat.eqb i j then 1 else f * at_ rho i j)).
Proof.
  unfold parameter_group. intro H. apply bind_iff in H as (es & Ees & H). apply bind_iff in H as (rho & Erho & H).
  apply bind_iff in H as (cov & Ecov & H). apply bind_iff in H as (d' & Ed & H). injection H as <- <-.
  destruct (fix_shape _ _ _ Erho) as (Hs & Hu). rewrite <- (map_map snd total_error) in Ecov.
  rewrite <- (map_length snd es) in Erho, Hs, Hu.
  destruct (parameter_covariance_spec positive (map snd es) rho cov Hs Hu Ecov) as (f & Hf & Hc1 & Hc2 & Hc3).
  apply mapM_iff in Ees.
  exists (map snd es), rho, cov, f. split; [|split; [|split; [exact Erho|split; [|split; [exact Hf|split; [exact Hc1|split; [exact Hc2|exact Hc3]]]]]]].
  - clear -Ees. induction Ees as [|x [n e] l es Hx H IH]; [reflexivity|]. cbn [map fst]. rewrite IH. f_equal.
    destruct (exists_parameter (fst x)); [|discriminate]. apply bind_iff in Hx as (? & _ & [= <- _]). reflexivity.
  - clear -Ees. induction Ees as [|x [n e] l es Hx H IH]; [constructor|]. cbn [map snd]. constructor; [|exact IH].
    destruct (exists_parameter (fst x)); [|discriminate]. apply bind_iff in Hx as (? & Hx & [= _ <-]). auto.
  - rewrite map_map. exact Ed.
Qed.
Print Assumptions C95_correlated_parameters.
Example C95_instance : parameter_group (fun _ => true) (fun _ => true) (fun _ _ => Ok tt)
  [("a"%string, Ok (mkErrs 1 [3; 4] [])); ("b"%string, Ok (mkErrs 2 [] [(1, 2)]))] (CNum 0.5) = Ok (["a"; "b"]%string, tt).
Proof. reflexivity. Qed.

(** ** C96: particle masses and lifetimes *)
Lemma pdg_dist_spec c r l d : pdg_dist (c, r, l) = Ok d -> pdg_constrained c r l d.
Proof.
  unfold pdg_dist, pdg_constrained. destruct (Req_EM_T r l).
  - destruct (Rle_dec r 0); [discriminate|]. intros [= <-]. auto.
  - destruct (Rle_dec r 0); [discriminate|]. destruct (Rle_dec l 0); [discriminate|]. intros [= <-]. auto.
Qed.
Theorem C96_particle_data l cons cons' : NoDup (map p_id l) -> read_pdg l cons = Ok cons' ->
  (forall p name, In p l -> In (name, p_id p) pdg_particles ->
     (exists pd, pdg_constrained (p_mass p * 1e-3) (p_mass_upper p * 1e-3) (p_mass_lower p * 1e-3) pd /\ od_get (append "m_" name) cons' = Some pd) /\
     (forall w u d, p_width p = Some w -> p_width_upper p = Some u -> p_width_lower p = Some d -> w <> 0 -> u <> 0 -> d <> 0 ->
        exists pd, pdg_constrained (1 / (w * 1e-3)) (u * 1e-3 / (w * 1e-3) ^ 2) (d * 1e-3 / (w * 1e-3) ^ 2) pd /\
          od_get (append "tau_" name) cons' = Some pd)) /\
  (forall par, (forall p name, In p l -> In (name, p_id p) pdg_particles -> par <> append "m_" name /\ par <> append "tau_" name) ->
     od_get par cons' = od_get par cons) /\
  (forall l', Permutation l l' -> exists cons'', read_pdg l' cons = Ok cons'' /\ forall par, od_get par cons'' = od_get par cons').
Proof.
  intros Hnd H. pose proof (pdg_data_nodup l Hnd) as Hd.
  change (read_pdg l cons) with (fold_left step_pdg (flat_map pdg_data l) (Ok cons)) in H.
  destruct (fold_pdg _ Hd _ _ H) as (H1 & H2). split; [|split].
  - intros p name Hp Hname. apply pdg_inv_spec in Hname. split.
    + destruct (H1 (append "m_" name) (p_mass p * 1e-3, p_mass_upper p * 1e-3, p_mass_lower p * 1e-3)) as (pd & E & Hg);
        [|exists pd; split; [now apply pdg_dist_spec|exact Hg]].
      apply in_flat_map. exists p. split; [exact Hp|]. unfold pdg_data, flavio_name. rewrite Hname. left. reflexivity.
    + intros w u d Ew Eu Ed Hw Hu Hdd.
      destruct (H1 (append "tau_" name) (1 / (w * 1e-3), u * 1e-3 / (w * 1e-3) ^ 2, d * 1e-3 / (w * 1e-3) ^ 2)) as (pd & E & Hg);
        [|exists pd; split; [now apply pdg_dist_spec|exact Hg]].
      apply in_flat_map. exists p. split; [exact Hp|]. unfold pdg_data, flavio_name. rewrite Hname. right.
      unfold flavio_tau. rewrite Ew, Eu, Ed. repeat (destruct (Req_EM_T _ 0); [contradiction|]). left. reflexivity.
  - intros par Hpar. apply H2. intro Hin. apply in_map_iff in Hin as ([n v] & E & Hin). cbn in E. subst n.
    apply in_flat_map in Hin as (p & Hp & Hin). apply pdg_data_names in Hin as (name & Hname & Hcase).
    destruct (Hpar p name Hp Hname). destruct Hcase as [(E & _)|(E & _)]; contradiction.
  - intros l' Hp.
    assert (Hnd' : NoDup (map p_id l')) by (eapply Permutation_NoDup; [apply Permutation_map, Hp|exact Hnd]).
    assert (Hperm : Permutation (flat_map pdg_data l) (flat_map pdg_data l')) by (apply Permutation_flat_map, Hp).
    destruct (proj2 (fold_pdg_ok (flat_map pdg_data l') cons)) as (cons'' & E).
    { intros n v Hin. apply (proj1 (fold_pdg_ok (flat_map pdg_data l) cons) (ex_intro _ _ H) n v). eapply Permutation_in; [apply Permutation_sym, Hperm|exact Hin]. }
    exists cons''. split; [exact E|]. destruct (fold_pdg _ (pdg_data_nodup l' Hnd') _ _ E) as (H1' & H2').
    intro par. destruct (in_dec string_dec par (map fst (flat_map pdg_data l))) as [Hin|Hin].
    + apply in_map_iff in Hin as ([n v] & En & Hin). cbn in En. subst n. destruct (H1 par v Hin) as (pd & Epd & Eg).
      destruct (H1' par v) as (pd' & Epd' & Eg'); [eapply Permutation_in; [exact Hperm|exact Hin]|]. rewrite Eg, Eg'. congruence.
    + rewrite H2, H2'; [reflexivity| |exact Hin]. intro Hin'. apply Hin. eapply Permutation_in; [apply Permutation_map, Permutation_sym, Hperm|exact Hin'].
Qed.
Print Assumptions C96_particle_data.
(** names and numbers of particles correspond one to one, and reading succeeds for positive uncertainties *)
Theorem C96_names_and_numbers :
  (forall name z z', In (name, z) pdg_particles -> In (name, z') pdg_particles -> z = z') /\
  (forall name name' z, In (name, z) pdg_particles -> In (name', z) pdg_particles -> name = name') /\
  (forall l cons, (exists cons', read_pdg l cons = Ok cons') <->
     forall p, In p l -> (exists name, In (name, p_id p) pdg_particles) ->
       0 < p_mass_upper p /\ 0 < p_mass_lower p /\
       forall w u d, p_width p = Some w -> p_width_upper p = Some u -> p_width_lower p = Some d -> w <> 0 -> u <> 0 -> d <> 0 -> 0 < u /\ 0 < d).
Proof.
  split; [apply pdg_inj|]. split.
  { intros n n' z H H'. apply pdg_inv_spec in H. apply pdg_inv_spec in H'. congruence. }
  intros l cons. change (read_pdg l cons) with (fold_left step_pdg (flat_map pdg_data l) (Ok cons)). rewrite fold_pdg_ok. split.
  - intros H p Hp (name & Hname). apply pdg_inv_spec in Hname.
    assert (Hin : forall n v, In (n, v) (pdg_data p) -> exists pd, pdg_dist v = Ok pd) by (intros n v Hv; eapply H; apply in_flat_map; eauto).
    unfold pdg_data, flavio_name in Hin. rewrite Hname in Hin.
    destruct (proj1 (pdg_dist_ok _ _ _) (Hin _ _ (or_introl eq_refl))) as (Hr & Hl). split; [lra|]. split; [lra|].
    intros w u d Ew Eu Ed Hw Hu Hd. unfold flavio_tau in Hin. rewrite Ew, Eu, Ed in Hin.
    destruct (Req_EM_T w 0); [contradiction|]. destruct (Req_EM_T u 0); [contradiction|]. destruct (Req_EM_T d 0); [contradiction|].
    destruct (proj1 (pdg_dist_ok _ _ _) (Hin _ _ (or_intror (or_introl eq_refl)))) as (Hr' & Hl').
    assert (Hpos : 0 < (w * 1e-3) ^ 2) by (assert (w * 1e-3 <> 0) by lra; rewrite <- Rsqr_pow2; apply Rsqr_pos_lt; assumption).
    split.
    + destruct (Rlt_le_dec 0 u) as [|Hle]; [assumption|exfalso]. assert (u * 1e-3 / (w * 1e-3) ^ 2 <= 0); [|lra].
      apply Rmult_le_reg_r with ((w * 1e-3) ^ 2); [exact Hpos|]. unfold Rdiv at 1. rewrite Rmult_assoc, Rinv_l by lra. lra.
    + destruct (Rlt_le_dec 0 d) as [|Hle]; [assumption|exfalso]. assert (d * 1e-3 / (w * 1e-3) ^ 2 <= 0); [|lra].
      apply Rmult_le_reg_r with ((w * 1e-3) ^ 2); [exact Hpos|]. unfold Rdiv at 1. rewrite Rmult_assoc, Rinv_l by lra. lra.
  - intros H n v Hin. apply in_flat_map in Hin as (p & Hp & Hin). apply pdg_data_names in Hin as (name & Hname & Hcase).
    destruct (H p Hp (ex_intro (fun n => In (n, p_id p) pdg_particles) name Hname)) as (Hu & Hl & Hw). destruct Hcase as [(_ & ->)|(_ & w & u & d & Ew & Eu & Ed & Hw0 & Hu0 & Hd0 & ->)].
    + apply pdg_dist_ok. lra.
    + destruct (Hw w u d Ew Eu Ed Hw0 Hu0 Hd0) as (Hu' & Hd'). apply pdg_dist_ok.
      assert (Hpos : 0 < (w * 1e-3) ^ 2) by (assert (w * 1e-3 <> 0) by lra; rewrite <- Rsqr_pow2; apply Rsqr_pos_lt; assumption).
      split; apply Rdiv_lt_0_compat; lra.
Qed.
Print Assumptions C96_names_and_numbers.
Example C96_instance : exists cons', read_pdg [mkP 511 5279 0.2 0.1 (Some 1) (Some 0.3) (Some 0.3)] [] = Ok cons'.
Proof.
  apply C96_names_and_numbers. intros p [<-|[]] _. cbn. split; [lra|]. split; [lra|]. intros w u d [= <-] [= <-] [= <-]. lra.
Qed.

(** ** C97 (fails): the uncertainties of a lifetime follow from those of the width *)
(** A larger width means a shorter lifetime, but the upper (lower) uncertainty of the width becomes the upper
    (lower) uncertainty of the lifetime: for asymmetric uncertainties, the two sides are exchanged.  To first order
    the lifetime 1/G of a width G+u-d has the uncertainties +d/G^2 -u/G^2. *)
Theorem C97_lifetime_sides_refuted name p w u d :
  p_width p = Some w -> p_width_upper p = Some u -> p_width_lower p = Some d -> 0 < w -> 0 < u -> 0 < d ->
  exists n tau right left, flavio_tau name p = Some (n, (tau, right, left)) /\
    let G := w * 1e-3 in
    tau = 1 / G /\ right = u * 1e-3 * Rabs (- 1 / G ^ 2) /\ left = d * 1e-3 * Rabs (- 1 / G ^ 2) /\
    (* exchanged with respect to linear error propagation, which is correct only for equal uncertainties *)
    (right = d * 1e-3 * Rabs (- 1 / G ^ 2) <-> u = d).
Proof.
  intros Ew Eu Ed Hw Hu Hd. unfold flavio_tau. rewrite Ew, Eu, Ed. repeat (destruct (Req_EM_T _ 0); [lra|]).
  do 4 eexists. split; [reflexivity|]. cbv zeta.
  assert (Hpos : 0 < (w * 1e-3) ^ 2) by (apply pow_lt; lra).
  assert (E : Rabs (- 1 / (w * 1e-3) ^ 2) = / (w * 1e-3) ^ 2).
  { replace (- 1 / (w * 1e-3) ^ 2) with (- / (w * 1e-3) ^ 2) by (unfold Rdiv; ring). rewrite Rabs_Ropp, Rabs_right; [reflexivity|]. left. apply Rinv_0_lt_compat, Hpos. }
  rewrite E. split; [reflexivity|]. split; [reflexivity|]. split; [reflexivity|]. split.
  - intro H. apply Rmult_eq_reg_r in H; [lra|]. apply Rgt_not_eq, Rinv_0_lt_compat, Hpos.
  - intros ->. reflexivity.
Qed.
Print Assumptions C97_lifetime_sides_refuted.
