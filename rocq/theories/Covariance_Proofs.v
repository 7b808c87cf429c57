(** * Proofs about covariances and FastLikelihoods *)
From Coq Require Import Permutation.
From Verif Require Import Base BaseLemmas Constraints_Model Constraints_Spec Constraints_Proofs Constraints_Proofs2
  Observables_Model Likelihood_Model Likelihood_Spec Likelihood_Proofs Covariance_Model Covariance_Spec.

Lemma Forall2_impl {A B} (R R' : A -> B -> Prop) l l' :
  (forall a b, R a b -> R' a b) -> Forall2 R l l' -> Forall2 R' l l'.
Proof. intros Hi Hf. induction Hf; constructor; auto. Qed.

Section Take.
  Context {X : Type}.
  Lemma take_spec (perm : list nat) (l l' : list X) :
    take perm l = Ok l' <-> Forall2 (fun i x => nth_error l i = Some x) perm l'.
  Proof.
    unfold take. rewrite mapM_Ok. split; intro H.
    - eapply Forall2_impl; [|exact H]. cbv beta. intros i x. destruct (nth_error l i); congruence.
    - eapply Forall2_impl; [|exact H]. cbv beta. intros i x ->. reflexivity.
  Qed.
  Lemma take_total (perm : list nat) (l : list X) :
    Forall (fun i => i < length l) perm -> exists l', take perm l = Ok l'.
  Proof.
    intro H. apply mapM_total. intros i Hi. rewrite Forall_forall in H. specialize (H i Hi).
    apply nth_error_Some in H. destruct (nth_error l i) as [x|]; [exists x; reflexivity|congruence].
  Qed.
End Take.

Lemma Forall2_len {A B} (R : A -> B -> Prop) l l' : Forall2 R l l' -> length l = length l'.
Proof. induction 1; cbn; congruence. Qed.
Lemma Forall2_nth {A B} (R : A -> B -> Prop) l l' i a b :
  Forall2 R l l' -> nth_error l i = Some a -> nth_error l' i = Some b -> R a b.
Proof.
  intro H. revert i. induction H as [|x y l l' Hxy H IH]; intros [|i]; cbn; try discriminate.
  - intros [= <-] [= <-]. exact Hxy.
  - apply IH.
Qed.
Lemma Forall2_nth_ex {A B} (R : A -> B -> Prop) l l' i a :
  Forall2 R l l' -> nth_error l i = Some a -> exists b, nth_error l' i = Some b /\ R a b.
Proof.
  intros H Ha. destruct (nth_error l' i) as [b|] eqn:E.
  - exists b. split; [reflexivity|]. eapply Forall2_nth; eauto.
  - apply nth_error_None in E. rewrite <- (Forall2_len _ _ _ H) in E.
    assert (i < length l) by (apply nth_error_Some; congruence). lia.
Qed.

Section Cov.
  Context {P V : Type} `{Eqb P}.
  Implicit Types (obs ours : list P).

  Lemma permutation_spec obs ours perm :
    permutation obs ours = Ok perm <-> Forall2 (fun o i => index_of o obs = Some i) ours perm.
  Proof.
    unfold permutation. rewrite mapM_Ok. split; intro Hf.
    - eapply Forall2_impl; [|exact Hf]. cbv beta. intros o i. destruct (index_of o obs); congruence.
    - eapply Forall2_impl; [|exact Hf]. cbv beta. intros o i ->. reflexivity.
  Qed.
  Lemma permutation_total obs ours : (forall o, In o ours -> In o obs) -> exists perm, permutation obs ours = Ok perm.
  Proof.
    intro Hi. apply mapM_total. intros o Ho. destruct (index_of_In o obs (Hi o Ho)) as [i Ei].
    rewrite Ei. eauto.
  Qed.
  Lemma permutation_missing obs ours :
    (exists o, In o ours /\ ~ In o obs) <-> permutation obs ours = Err ValueError.
  Proof.
    unfold permutation. induction ours as [|o ours IH]; cbn.
    - split; [intros [o [[] _]]|discriminate].
    - destruct (index_of o obs) as [i|] eqn:E; cbn.
      + assert (Ho : In o obs) by (apply index_of_Some in E as [E _]; eapply nth_error_In; eauto).
        transitivity (exists o0, In o0 ours /\ ~ In o0 obs).
        * split; [intros [q [[->|Hq] Hn]]; [tauto|eauto]|intros [q [Hq Hn]]; eauto].
        * rewrite IH. destruct (mapM _ ours) as [l|e]; cbn; split; congruence.
      + apply index_of_None in E. split; [reflexivity|]. intros _. exists o. tauto.
  Qed.
  Lemma permutation_bound obs ours perm :
    permutation obs ours = Ok perm -> Forall (fun i => i < length obs) perm.
  Proof.
    rewrite permutation_spec. intro Hf. apply Forall_forall. intros i Hi.
    apply In_nth_error in Hi as [k Hk].
    assert (Hk' : exists o, nth_error ours k = Some o).
    { destruct (nth_error ours k) eqn:E; [eauto|]. apply nth_error_None in E.
      rewrite (Forall2_len _ _ _ Hf) in E. assert (k < length perm) by (apply nth_error_Some; congruence). lia. }
    destruct Hk' as [o Ho]. pose proof (Forall2_nth _ _ _ _ _ _ Hf Ho Hk) as Hx. cbv beta in Hx.
    apply index_of_Some in Hx as [Hx _]. apply nth_error_Some. congruence.
  Qed.

  (** reordering a square matrix *)
  Lemma submatrix_ok obs ours perm (rows : list (list V)) :
    NoDup obs -> permutation obs ours = Ok perm -> square (length obs) rows ->
    exists m, submatrix perm (A2 rows) = Ok m /\ matrix_in_basis obs ours rows m.
  Proof.
    intros Hnd Hp [Hl Hr].
    pose proof (permutation_bound _ _ _ Hp) as Hb. apply permutation_spec in Hp.
    destruct (take_total perm rows) as [rs Hrs]; [rewrite Hl; exact Hb|].
    cbn [submatrix bind]. rewrite Hrs. cbn [bind]. pose proof Hrs as Hrs'. apply take_spec in Hrs.
    assert (Hrs_sq : forall r, In r rs -> length r = length obs).
    { intros r Hir. apply In_nth_error in Hir as [k Hk].
      destruct (nth_error perm k) as [i|] eqn:Ei.
      - pose proof (Forall2_nth _ _ _ _ _ _ Hrs Ei Hk) as Hx. cbv beta in Hx.
        rewrite Forall_forall in Hr. apply Hr. eapply nth_error_In; eauto.
      - apply nth_error_None in Ei. rewrite (Forall2_len _ _ _ Hrs) in Ei.
        assert (k < length rs) by (apply nth_error_Some; congruence). lia. }
    destruct (@mapM_total _ _ (take perm) rs) as [m Hm].
    { intros r Hir. apply take_total. rewrite (Hrs_sq r Hir). exact Hb. }
    exists m. split; [exact Hm|]. apply mapM_Ok in Hm.
    assert (Hlp : length perm = length ours) by (symmetry; eapply Forall2_len; eauto).
    split; [split|].
    - rewrite <- (Forall2_len _ _ _ Hm), <- (Forall2_len _ _ _ Hrs). exact Hlp.
    - apply Forall_forall. intros r' Hir'. apply In_nth_error in Hir' as [k Hk].
      assert (Hx : exists r, nth_error rs k = Some r).
      { destruct (nth_error rs k) eqn:E; [eauto|]. apply nth_error_None in E.
        rewrite (Forall2_len _ _ _ Hm) in E. assert (k < length m) by (apply nth_error_Some; congruence). lia. }
      destruct Hx as [r Hr']. pose proof (Forall2_nth _ _ _ _ _ _ Hm Hr' Hk) as Hx. cbv beta in Hx.
      apply take_spec in Hx. rewrite <- (Forall2_len _ _ _ Hx). exact Hlp.
    - intros i j a b o p Hi Hj Ha Hb'.
      destruct (Forall2_nth_ex _ _ _ _ _ Hp Hi) as [pi [Hpi Hoi]].
      destruct (Forall2_nth_ex _ _ _ _ _ Hp Hj) as [pj [Hpj Hoj]].
      rewrite (@index_of_NoDup _ _ _ _ _ Hnd Ha) in Hoi. injection Hoi as <-.
      rewrite (@index_of_NoDup _ _ _ _ _ Hnd Hb') in Hoj. injection Hoj as <-.
      destruct (Forall2_nth_ex _ _ _ _ _ Hrs Hpi) as [r [Hri Hra]].
      destruct (Forall2_nth_ex _ _ _ _ _ Hm Hri) as [r' [Hr'i Ht]].
      apply take_spec in Ht. destruct (Forall2_nth_ex _ _ _ _ _ Ht Hpj) as [x [Hx1 Hx2]].
      unfold entry. rewrite Hr'i, Hra. congruence.
  Qed.
  Lemma take_basis {X} obs ours perm (v : list X) :
    NoDup obs -> permutation obs ours = Ok perm -> length v = length obs ->
    exists v', take perm v = Ok v' /\ vector_in_basis obs ours v v'.
  Proof.
    intros Hnd Hp Hl. destruct (take_total perm v) as [v' Hv'].
    { rewrite Hl. eapply permutation_bound; eauto. }
    exists v'. split; [exact Hv'|]. apply take_spec in Hv'. apply permutation_spec in Hp. split.
    - rewrite <- (Forall2_len _ _ _ Hv'). symmetry. eapply Forall2_len; eauto.
    - intros i a o Hi Ha. destruct (Forall2_nth_ex _ _ _ _ _ Hp Hi) as [k [Hk Hok]].
      rewrite (@index_of_NoDup _ _ _ _ _ Hnd Ha) in Hok. injection Hok as <-.
      destruct (Forall2_nth_ex _ _ _ _ _ Hv' Hk) as [x [Hx1 Hx2]]. congruence.
  Qed.

  Lemma sm_load_matrix obs ours (rows : list (list V)) :
    NoDup obs -> square (length obs) rows -> (forall o, In o ours -> In o obs) -> length ours <> 1 ->
    exists m, sm_load ours (obs, A2 rows) = Ok (A2 m) /\ matrix_in_basis obs ours rows m.
  Proof.
    intros Hnd Hsq Hin Hlen. destruct (permutation_total obs ours Hin) as [perm Hp].
    destruct (submatrix_ok _ _ _ _ Hnd Hp Hsq) as [m [Hm Hb]]. exists m. split; [|exact Hb].
    unfold sm_load. rewrite Hp. cbn [bind].
    assert (Hl : length perm = length ours) by (symmetry; eapply Forall2_len; apply permutation_spec; eauto).
    apply Nat.eqb_neq in Hlen. rewrite Hl, Hlen, Hm. reflexivity.
  Qed.
  Lemma sm_load_single obs o (rows : list (list V)) a :
    NoDup obs -> square (length obs) rows -> nth_error obs a = Some o ->
    exists v, sm_load [o] (obs, A2 rows) = Ok (A0 v) /\ entry rows a a = Some v.
  Proof.
    intros Hnd Hsq Ha. destruct (permutation_total obs [o]) as [perm Hp].
    { intros q [<-|[]]. eapply nth_error_In; eauto. }
    destruct (submatrix_ok _ _ _ _ Hnd Hp Hsq) as [m [Hm [[Hl Hr] Hb]]].
    pose proof (proj1 (permutation_spec _ _ _) Hp) as Hf. pose proof (Forall2_len _ _ _ Hf) as Hlp. cbn in Hlp.
    unfold sm_load. rewrite Hp. cbn [bind]. rewrite <- Hlp. cbn [Nat.eqb]. rewrite Hm. cbn [bind].
    cbn in Hl. destruct m as [|r [|? ?]]; cbn in Hl; try lia.
    inversion Hr as [|? ? Hr1 _]; subst. cbn in Hr1. destruct r as [|v [|? ?]]; cbn in Hr1; try lia.
    exists v. split; [reflexivity|].
    specialize (Hb 0 0 a a o o eq_refl eq_refl Ha Ha). cbn in Hb. symmetry. exact Hb.
  Qed.
  Lemma sm_load_scalar obs o (v : V) : In o obs -> sm_load [o] (obs, A0 v) = Ok (A0 v).
  Proof.
    intro Hi. destruct (index_of_In o obs Hi) as [i Ei]. unfold sm_load, permutation. cbn [mapM].
    rewrite Ei. reflexivity.
  Qed.
  Lemma sm_load_missing obs ours (cov : arr V) :
    (exists o, In o ours /\ ~ In o obs) -> sm_load ours (obs, cov) = Err ValueError.
  Proof. intro Hx. apply permutation_missing in Hx. unfold sm_load. rewrite Hx. reflexivity. Qed.

  Lemma exp_load_matrix obs ours (c : list V) (rows : list (list V)) :
    NoDup obs -> square (length obs) rows -> length c = length obs -> (forall o, In o ours -> In o obs) ->
    exists c' m, exp_load ours (obs, (A1 c, A2 rows)) = Ok (A1 c', A2 m) /\
      vector_in_basis obs ours c c' /\ matrix_in_basis obs ours rows m.
  Proof.
    intros Hnd Hsq Hc Hin. destruct (permutation_total obs ours Hin) as [perm Hp].
    destruct (submatrix_ok _ _ _ _ Hnd Hp Hsq) as [m [Hm Hb]].
    destruct (take_basis _ _ _ c Hnd Hp Hc) as [c' [Hc' Hbc]].
    exists c', m. split; [|split; assumption]. unfold exp_load. rewrite Hp. cbn [bind]. rewrite Hc'.
    cbn [bind]. rewrite Hm. reflexivity.
  Qed.
  Lemma exp_load_scalar obs o (c : V) cov : In o obs -> exp_load [o] (obs, (A0 c, cov)) = Ok (A0 c, cov).
  Proof.
    intro Hi. destruct (index_of_In o obs Hi) as [i Ei]. unfold exp_load, permutation. cbn [mapM].
    rewrite Ei. reflexivity.
  Qed.
  Lemma exp_load_missing obs ours (cc : arr V * arr V) :
    (exists o, In o ours /\ ~ In o obs) -> exp_load ours (obs, cc) = Err ValueError.
  Proof.
    intro Hx. apply permutation_missing in Hx. unfold exp_load. destruct cc as [c cov]. rewrite Hx. reflexivity.
  Qed.

  (** identity on the own basis *)
  Lemma nth_error_ext' {X} (l l' : list X) : length l = length l' ->
    (forall i, i < length l -> nth_error l i = nth_error l' i) -> l = l'.
  Proof.
    revert l'. induction l as [|x l IH]; intros [|y l']; cbn; try discriminate; intros Hl Hn; [reflexivity|].
    pose proof (Hn 0 ltac:(lia)) as H0. cbn in H0. injection H0 as ->. f_equal. apply IH; [lia|].
    intros i Hi. apply (Hn (S i)). lia.
  Qed.
  Lemma basis_id_vector ours (v v' : list V) :
    length v = length ours -> vector_in_basis ours ours v v' -> v' = v.
  Proof.
    intros Hl [Hl' Hn]. apply nth_error_ext'; [congruence|]. intros i Hi.
    destruct (nth_error ours i) as [o|] eqn:E; [|apply nth_error_None in E; lia]. eapply Hn; eauto.
  Qed.
  Lemma basis_id_matrix ours (m m' : list (list V)) :
    square (length ours) m -> matrix_in_basis ours ours m m' -> m' = m.
  Proof.
    intros [Hl Hr] [[Hl' Hr'] He]. apply nth_error_ext'; [congruence|]. intros i Hi.
    destruct (nth_error m' i) as [r'|] eqn:E'; [|apply nth_error_None in E'; lia].
    destruct (nth_error m i) as [r|] eqn:E; [|apply nth_error_None in E; lia]. f_equal.
    rewrite Forall_forall in Hr, Hr'.
    pose proof (Hr _ (nth_error_In _ _ E)) as Hlr. pose proof (Hr' _ (nth_error_In _ _ E')) as Hlr'.
    apply nth_error_ext'; [congruence|]. intros j Hj.
    destruct (nth_error ours i) as [o|] eqn:Eo; [|apply nth_error_None in Eo; lia].
    destruct (nth_error ours j) as [p|] eqn:Ep; [|apply nth_error_None in Ep; lia].
    specialize (He i j i j o p Eo Ep Eo Ep). unfold entry in He. rewrite E, E' in He. exact He.
  Qed.
  Lemma sm_roundtrip ours (rows : list (list V)) :
    NoDup ours -> square (length ours) rows -> length ours <> 1 -> sm_load ours (ours, A2 rows) = Ok (A2 rows).
  Proof.
    intros Hnd Hsq Hl. destruct (sm_load_matrix ours ours rows Hnd Hsq (fun _ h => h) Hl) as [m [Hm Hb]].
    rewrite Hm. f_equal. f_equal. eapply basis_id_matrix; eauto.
  Qed.
  Lemma exp_roundtrip ours (c : list V) (rows : list (list V)) :
    NoDup ours -> square (length ours) rows -> length c = length ours ->
    exp_load ours (ours, (A1 c, A2 rows)) = Ok (A1 c, A2 rows).
  Proof.
    intros Hnd Hsq Hc. destruct (exp_load_matrix ours ours c rows Hnd Hsq Hc (fun _ h => h)) as [c' [m [Hm [Hv Hb]]]].
    rewrite Hm. do 2 f_equal; f_equal; [eapply basis_id_vector; eauto|eapply basis_id_matrix; eauto].
  Qed.
End Cov.

(** ** the cache *)
Section State.
  Context {P C : Type}.
  Variable default_N : nat.
  Variable ours : list P.
  Variable load_dict : list P -> list P * C -> result C.
  Notation step := (cov_step default_N ours load_dict).
  Notation run := (cov_run default_N ours load_dict).

  Lemma cov_run_app ops ops' st tr :
    run (ops ++ ops') st tr = let '(st', tr') := run ops st tr in run ops' st' tr'.
  Proof.
    revert st tr; induction ops as [|o ops IH]; intros st tr; cbn; [reflexivity|].
    destruct (step st o) as [st' out]. apply IH.
  Qed.
  Lemma cov_run_latest_gen ops st tr :
    st = latest (load_dict ours) tr ->
    fst (run ops st tr) = latest (load_dict ours) (snd (run ops st tr)).
  Proof.
    revert st tr; induction ops as [|o ops IH]; intros st tr Hst; cbn [cov_run]; [exact Hst|].
    destruct (step st o) as [st' out] eqn:E. apply IH.
    destruct o as [N force fresh|d|]; cbn in E.
    - destruct st as [c|], force, fresh as [c'|e]; injection E as <- <-; cbn; auto; congruence.
    - destruct (load_dict ours d) as [c|e] eqn:El; injection E as <- <-; cbn; [rewrite El; reflexivity|exact Hst].
    - destruct st; injection E as <- <-; cbn; exact Hst.
  Qed.
  Lemma cov_run_latest ops : fst (run ops None []) = latest (load_dict ours) (snd (run ops None [])).
  Proof. apply cov_run_latest_gen. reflexivity. Qed.
  Lemma cov_outcome ops o :
    let st := latest (load_dict ours) (snd (run ops None [])) in
    snd (run (ops ++ [o]) None []) = (o, snd (step st o)) :: snd (run ops None []).
  Proof.
    cbn zeta. rewrite <- cov_run_latest. rewrite cov_run_app. destruct (run ops None []) as [st tr]. cbn.
    destruct (step st o); reflexivity.
  Qed.
End State.

(** ** FastLikelihood *)
Lemma string_app_inj (p a b : string) : (p ++ a)%string = (p ++ b)%string -> a = b.
Proof. induction p as [|c p IH]; cbn; [auto|]. intro E. injection E as E. auto. Qed.
Section Fast.
  Context {P D V L : Type} `{Eqb P} `{Eqb D}.
  Variable lp : bool -> D -> larg V -> L.
  Variable lzero : L.
  Variable ladd : L -> L -> L.
  Variable shuffle : list string -> list string.
  Implicit Types (reg : od string (list (cop P D))) (m : ml P) (f : fast P).

  Lemma pseudo_of_pseudo name : is_pseudo (pseudo_of name) = true.
  Proof.
    apply is_pseudo_spec. right. unfold pseudo_of. exists ("for FastLikelihood instance: " ++ name)%string. reflexivity.
  Qed.
  Lemma pseudo_of_inj n n' : pseudo_of n = pseudo_of n' -> n = n'.
  Proof. apply string_app_inj. Qed.

  Lemma built_set k h reg : built (od_set k h reg) = od_set k (after [] h) (built reg).
  Proof.
    unfold built. induction reg as [|[k0 h0] reg IH]; cbn; [reflexivity|].
    destruct (eqb k k0); cbn; [reflexivity|]. rewrite IH. reflexivity.
  Qed.
  Lemma built_keys reg : od_keys (built reg) = od_keys reg.
  Proof. unfold built, od_keys. rewrite map_map. reflexivity. Qed.

  Lemma filter_od_set {K X} `{Eqb K} (g : K * X -> bool) k v (d : od K X) :
    (forall x, g (k, x) = false) -> filter g (od_set k v d) = filter g d.
  Proof.
    intro Hg. induction d as [|[k0 v0] d IH]; cbn; [rewrite Hg; reflexivity|].
    destruct (eqb_spec k k0) as [->|ne]; cbn; [rewrite !Hg; reflexivity|]. rewrite IH. reflexivity.
  Qed.
  Lemma all_measurements_pseudo m k (c : cset P D) (r : od string (cset P D)) :
    include_pseudo m = false -> is_pseudo k = true -> all_measurements m (od_set k c r) = all_measurements m r.
  Proof.
    intros Hm Hk. unfold all_measurements. rewrite filter_od_set; [reflexivity|].
    intro x. cbn [fst]. rewrite Hk, Hm. reflexivity.
  Qed.
  Lemma get_measurements_pseudo m k (c : cset P D) (r : od string (cset P D)) :
    include_pseudo m = false -> is_pseudo k = true ->
    Likelihood_Model.get_measurements shuffle m (od_set k c r) = Likelihood_Model.get_measurements shuffle m r.
  Proof. intros Hm Hk. unfold Likelihood_Model.get_measurements. rewrite (all_measurements_pseudo m k c r Hm Hk). reflexivity. Qed.
  Lemma all_measurements_nopseudo m n (r : od string (cset P D)) :
    include_pseudo m = false -> In n (all_measurements m r) -> is_pseudo n = false.
  Proof.
    intros Hm Hin. unfold all_measurements in Hin. apply in_map_iff in Hin as [[k c] [<- Hf]].
    apply filter_In in Hf as [_ Hf]. cbn [fst snd] in *. rewrite Hm in Hf.
    destruct (is_pseudo k); [discriminate|reflexivity].
  Qed.
  Lemma get_measurements_nopseudo m n (r : od string (cset P D)) :
    (forall l, Permutation (shuffle l) l) -> include_pseudo m = false ->
    In n (Likelihood_Model.get_measurements shuffle m r) -> is_pseudo n = false.
  Proof.
    intros Hsh Hm Hin. apply (all_measurements_nopseudo m n r Hm).
    unfold Likelihood_Model.get_measurements in Hin.
    destruct (exclude_measurements m); [|destruct (include_measurements m)]; try assumption.
    - apply (Permutation_in _ (Hsh _)) in Hin. apply filter_In in Hin. tauto.
    - apply (Permutation_in _ (Hsh _)) in Hin. apply filter_In in Hin. tauto.
  Qed.

  Lemma foldM_ext_in {A B} (g g' : B -> A -> result B) (l : list A) (b : B) :
    (forall x y, In x l -> g y x = g' y x) -> foldM g l b = foldM g' l b.
  Proof.
    revert b. induction l as [|x l IH]; intros b Hx; cbn; [reflexivity|].
    rewrite Hx; [|left; reflexivity]. destruct (g' b x); cbn; [|reflexivity]. apply IH. intros; apply Hx; right; assumption.
  Qed.

  Lemma make_invisible m f d reg pred excl delta :
    (forall l, Permutation (shuffle l) l) -> include_pseudo m = false ->
    let reg' := make_measurement f d reg in
    Likelihood_Model.get_measurements shuffle m (built reg') = Likelihood_Model.get_measurements shuffle m (built reg) /\
    log_likelihood_pred lp lzero ladd shuffle m (built reg') pred excl delta
      = log_likelihood_pred lp lzero ladd shuffle m (built reg) pred excl delta /\
    get_number_observations shuffle m (built reg') excl = get_number_observations shuffle m (built reg) excl.
  Proof.
    intros Hsh Hm. cbn zeta. unfold make_measurement. rewrite built_set.
    set (k := pseudo_of (f_name f)). set (c := after [] [Add false (f_obs f) d]).
    assert (Hk : is_pseudo k = true) by apply pseudo_of_pseudo.
    assert (Hget : forall n, In n (Likelihood_Model.get_measurements shuffle m (built reg)) ->
              od_get n (od_set k c (built reg)) = od_get n (built reg)).
    { intros n Hn. apply od_get_set_ne. intros ->. apply (get_measurements_nopseudo m _ _ Hsh Hm) in Hn. congruence. }
    pose proof (get_measurements_pseudo m k c (built reg) Hm Hk) as Hg. split; [exact Hg|]. split.
    - unfold log_likelihood_pred. rewrite Hg. apply foldM_ext_in. intros n ll Hn. unfold ll_step. rewrite Hget; [reflexivity|exact Hn].
    - unfold get_number_observations. rewrite Hg. apply foldM_ext_in. intros n ll Hn. rewrite Hget; [reflexivity|exact Hn].
  Qed.

  Lemma makes_invisible m (makes : list (fast P * D)) reg pred excl delta :
    (forall l, Permutation (shuffle l) l) -> include_pseudo m = false ->
    let reg' := frun (map (fun fd => Make (fst fd) (snd fd)) makes) reg in
    Likelihood_Model.get_measurements shuffle m (built reg') = Likelihood_Model.get_measurements shuffle m (built reg) /\
    log_likelihood_pred lp lzero ladd shuffle m (built reg') pred excl delta
      = log_likelihood_pred lp lzero ladd shuffle m (built reg) pred excl delta /\
    get_number_observations shuffle m (built reg') excl = get_number_observations shuffle m (built reg) excl.
  Proof.
    intros Hsh Hm. cbn zeta. unfold frun. revert reg. induction makes as [|[f d] makes IH]; intro reg; cbn [map fold_left].
    - auto.
    - destruct (IH (fstep reg (Make f d))) as [A [B C]]. cbn [fst snd].
      destruct (make_invisible m f d reg pred excl delta Hsh Hm) as [A' [B' C']].
      cbn [fstep] in *. split; [|split]; congruence.
  Qed.

  (** own measurement *)
  Lemma frun_get k (es : list (fevent P D)) reg :
    Forall (fun e => target e <> k) es -> od_get k (frun es reg) = od_get k reg.
  Proof.
    unfold frun. revert reg. induction es as [|e es IH]; intros reg Hf; cbn [fold_left]; [reflexivity|].
    inversion Hf as [|? ? Hne Hf']; subst. rewrite IH; [|exact Hf'].
    destruct e as [f d|n h|n]; cbn [target fstep] in *; unfold make_measurement.
    - apply od_get_set_ne. apply not_eq_sym. exact Hne.
    - apply od_get_set_ne. apply not_eq_sym. exact Hne.
    - apply od_get_pop_ne. apply not_eq_sym. exact Hne.
  Qed.
  Lemma frun_NoDup (es : list (fevent P D)) reg : NoDup (od_keys reg) -> NoDup (od_keys (frun es reg)).
  Proof.
    unfold frun. revert reg. induction es as [|e es IH]; intros reg Hnd; cbn [fold_left]; [exact Hnd|].
    apply IH. destruct e as [f d|n h|n]; cbn; unfold make_measurement.
    - apply od_set_NoDup, Hnd.
    - apply od_set_NoDup, Hnd.
    - apply od_pop_NoDup, Hnd.
  Qed.
  Lemma filter_single {K X} `{Eqb K} (g : K * X -> bool) k x (d : od K X) :
    NoDup (od_keys d) -> od_get k d = Some x -> g (k, x) = true ->
    (forall k' x', In (k', x') d -> g (k', x') = true -> k' = k) -> filter g d = [(k, x)].
  Proof.
    induction d as [|[k0 x0] d IH]; cbn; [discriminate|]. intros Hnd Hget Hg Hu.
    inversion Hnd as [|? ? Hni Hnd']; subst. destruct (eqb_spec k k0) as [->|ne].
    - injection Hget as ->. rewrite Hg. f_equal.
      destruct (filter g d) as [|[k1 x1] r] eqn:E; [reflexivity|]. exfalso.
      assert (Hi : In (k1, x1) (filter g d)) by (rewrite E; left; reflexivity).
      apply filter_In in Hi as [Hi Hgi]. specialize (Hu k1 x1 (or_intror Hi) Hgi). subst.
      apply Hni. apply (in_map fst) in Hi. exact Hi.
    - destruct (g (k0, x0)) eqn:Eg; [exfalso; apply ne; symmetry; apply (Hu k0 x0); auto|].
      apply IH; auto. intros k' x' Hi. apply Hu. right. exact Hi.
  Qed.

  Lemma fast_own (es : list (fevent P D)) f (d : D) reg (pred : od P V) (val : P -> V) excl delta :
    (forall l, Permutation (shuffle l) l) -> comm_monoid lzero ladd ->
    NoDup (od_keys reg) -> NoDup (f_obs f) -> f_obs f <> [] ->
    (forall p, In p (f_obs f) -> ~ In p excl -> od_get p pred = Some (val p)) ->
    Forall (fun e => target e <> pseudo_of (f_name f)) es ->
    fast_log_likelihood lp lzero ladd shuffle f (frun es (make_measurement f d reg)) pred excl delta
    = Ok (lsum lzero ladd (measurement_terms lp delta val (wanted (fast_ml f) excl) [Add false (f_obs f) d])).
  Proof.
    intros Hsh HM Hnd Hobs Hne Hpred Hes. set (k := pseudo_of (f_name f)) in *.
    set (reg' := frun es (make_measurement f d reg)). set (h := [Add false (f_obs f) d]).
    assert (Hnd' : NoDup (od_keys reg')) by (apply frun_NoDup, od_set_NoDup, Hnd).
    assert (Hget : od_get k reg' = Some h).
    { unfold reg'. rewrite frun_get; [|exact Hes]. apply od_get_set_eq. }
    assert (Hone : one_list (fast_ml f)) by (left; reflexivity).
    assert (Huniq : forall n h', In (n, h') reg' -> takes_part (fast_ml f) n h' -> n = k /\ h' = h).
    { intros n h' Hin [_ [_ [_ Hinc]]]. specialize (Hinc _ eq_refl) as [<-|[]]. split; [reflexivity|].
      pose proof (od_In_get _ _ _ Hnd' Hin) as Hg. fold k in Hg. congruence. }
    unfold fast_log_likelihood.
    rewrite (log_likelihood_spec lp lzero ladd shuffle Hsh HM (fast_ml f) reg' pred val excl delta Hnd' Hone).
    - rewrite (filter_single (parts (fast_ml f)) k h reg' Hnd' Hget).
      + cbn [flat_map snd]. rewrite app_nil_r. reflexivity.
      + apply parts_spec; [exact Hone|]. destruct (f_obs f) as [|o obs] eqn:E; [congruence|].
        split; [reflexivity|]. split; [|split; [discriminate|]].
        * exists o. split; [cbn; rewrite E; left; reflexivity|]. unfold h. cbn [rev app current]. 
          destruct (last_index o (o :: obs)) eqn:El; [discriminate|]. exfalso. cbn in El. rewrite eqb_refl in El.
          destruct (last_index o obs); discriminate.
        * intros inc [= <-]. left. reflexivity.
      + intros n h' Hin Hp. apply parts_spec in Hp; [|exact Hone]. destruct (Huniq n h' Hin Hp). assumption.
    - intros n h' Hin Htp. destruct (Huniq n h' Hin Htp) as [-> ->]. split.
      + unfold h. split; cbn; [constructor; [tauto|constructor]|constructor; [exact Hobs|constructor]].
      + intros p Hw _. unfold wanted in Hw. cbn [fast_ml observables] in Hw.
        apply andb_true_iff in Hw as [Hp1 Hp2]. apply memb_In in Hp1. apply Hpred; [exact Hp1|].
        apply memb_notIn. destruct (memb p excl); [discriminate|reflexivity].
  Qed.
  Lemma fast_own_all (es : list (fevent P D)) f (d : D) reg (pred : od P V) (val : P -> V) delta :
    (forall l, Permutation (shuffle l) l) -> comm_monoid lzero ladd ->
    NoDup (od_keys reg) -> NoDup (f_obs f) -> f_obs f <> [] ->
    (forall p, In p (f_obs f) -> od_get p pred = Some (val p)) ->
    Forall (fun e => target e <> pseudo_of (f_name f)) es ->
    fast_log_likelihood lp lzero ladd shuffle f (frun es (make_measurement f d reg)) pred [] delta
    = Ok (lp delta d (match f_obs f with [p] => Scalar (val p) | ps => Vec (map val ps) None end)).
  Proof.
    intros Hsh HM Hnd Hobs Hne Hpred Hes.
    rewrite (fast_own es f d reg pred val [] delta Hsh HM Hnd Hobs Hne (fun p Hp _ => Hpred p Hp) Hes).
    f_equal. unfold measurement_terms. cbn [additions flat_map snd]. rewrite app_nil_r.
    set (ex := filter _ (f_obs f)).
    assert (Hex : ex = []).
    { unfold ex, wanted. cbn [fast_ml observables].
      assert (Hg : forall l, (forall x, In x l -> In x (f_obs f)) ->
                filter (fun p => negb (memb p (f_obs f) && negb (memb p []))) l = []).
      { induction l as [|x l IHl]; cbn [filter]; [reflexivity|]. intro Hl.
        assert (E : memb x (f_obs f) = true) by (apply memb_In, Hl; left; reflexivity). rewrite E. cbn [memb existsb negb andb].
        apply IHl. intros y Hy. apply Hl. right. exact Hy. }
      apply Hg. auto. }
    rewrite Hex. unfold contribution.
    assert (Hlive : forall p, In p (f_obs f) -> live (rev [Add false (f_obs f) d]) [] d p = true).
    { intros p Hp. unfold live. cbn [memb existsb negb andb rev app current].
      destruct (last_index p (f_obs f)) eqn:E; [apply eqb_refl|]. exfalso.
      clear - Hp E. induction (f_obs f) as [|q l IH]; cbn in *; [tauto|].
      destruct (last_index p l); [discriminate|]. destruct (eqb_spec p q); [discriminate|].
      destruct Hp; [congruence|auto]. }
    assert (Hf : filter (live (rev [Add false (f_obs f) d]) [] d) (f_obs f) = f_obs f).
    { revert Hlive. generalize (live (rev [Add false (f_obs f) d]) [] d). intros g Hlive. clear - Hlive. induction (f_obs f) as [|q l IH] in Hlive |- *; cbn [filter]; [reflexivity|]. rewrite Hlive; [|left; reflexivity]. f_equal. apply IH. intros p Hp. apply Hlive. right. exact Hp. }
    rewrite Hf.
    assert (Hpos : positions (fun p => negb (live (rev [Add false (f_obs f) d]) [] d p)) (f_obs f) = []).
    { apply positions_nil. intros p Hp. rewrite (Hlive p Hp). reflexivity. }
    rewrite Hpos. destruct HM as [_ Hcomm Hzero].
    destruct (f_obs f) as [|p [|q ps]]; [congruence| |]; cbn [length Nat.eqb map]; unfold lsum; cbn [fold_left];
      apply Hzero.
  Qed.
End Fast.
