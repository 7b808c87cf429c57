(** * Proofs about dumping and loading likelihoods *)
From Coq Require Import Permutation.
From Verif Require Import Base BaseLemmas Constraints_Model ConstraintsIO_Model Observables_Model Observables_Proofs
  Constraints_Spec Likelihood_Model Likelihood_Spec Likelihood_Proofs InstanceIO_Model.

(** A well-formed observable key: a registered name with the right number of arguments. *)
Definition valid_key {A} (oreg : od string (option (list string))) (k : pkey (pyval A)) : Prop :=
  match k with
  | KStr s => od_get s oreg = Some None
  | KTup (VStr n :: vals) => exists args, od_get n oreg = Some (Some args) /\ NoDup args /\
                               ~ In "name"%string args /\ length vals = length args
  | KTup _ => False
  end.

Section Dedup.
  Context {A : Type} `{Eqb A}.
  Lemma dedup_go (l : list A) (d : od A unit) :
    od_keys (fold_left (fun d x => od_set x tt d) l d)
    = od_keys d ++ filter (fun x => negb (memb x (od_keys d))) (dedup l).
  Proof.
    revert d; induction l as [|x l IH]; intro d; cbn [fold_left dedup filter].
    - rewrite app_nil_r. reflexivity.
    - rewrite IH, od_keys_set. destruct (memb_spec x (od_keys d)) as [Hi|Hn]; cbn [negb].
      + f_equal. rewrite filter_filter. apply filter_ext. intro y.
        destruct (eqb_spec x y) as [<-|ne]; cbn [negb andb]; [|rewrite ?andb_true_r; reflexivity].
        apply memb_In in Hi. rewrite Hi. reflexivity.
      + rewrite <- app_assoc. cbn [app]. do 2 f_equal. rewrite filter_filter. apply filter_ext. intro y.
        unfold memb. rewrite existsb_app. cbn [existsb]. rewrite orb_false_r, negb_orb.
        rewrite (eqb_sym y x). try rewrite (andb_comm _ (negb (eqb x y))). reflexivity.
  Qed.
  Lemma list_deduplicate_eq (l : list A) : list_deduplicate l = dedup l.
  Proof.
    unfold list_deduplicate. rewrite dedup_go. cbn [od_keys map app].
    induction (dedup l) as [|x r IH]; cbn [filter memb existsb negb]; [reflexivity|]. f_equal. exact IH.
  Qed.
  Lemma dedup_id (l : list A) : NoDup l -> dedup l = l.
  Proof.
    induction 1 as [|x l Hni Hnd IH]; cbn [dedup]; [reflexivity|]. rewrite IH. f_equal.
    clear - Hni. induction l as [|y l IH]; cbn [filter]; [reflexivity|].
    cbn in Hni. destruct (eqb_spec x y) as [->|]; [tauto|]. cbn [negb]. f_equal. apply IH. tauto.
  Qed.
  (** relative order: [dedup] is the list of first occurrences *)
  Lemma dedup_app (l l' : list A) : dedup (l ++ l') = dedup l ++ filter (fun x => negb (memb x l)) (dedup l').
  Proof.
    induction l as [|x l IH]; cbn [app dedup]; [|rewrite IH].
    - induction (dedup l') as [|y r IH]; cbn [filter memb existsb negb]; [reflexivity|]. f_equal. exact IH.
    - rewrite filter_app. cbn [app]. do 2 f_equal. rewrite filter_filter. apply filter_ext. intro y.
      change (memb y (x :: l)) with (eqb y x || memb y l). rewrite negb_orb, (eqb_sym y x).
      destruct (negb (memb y l)), (negb (eqb x y)); reflexivity.
  Qed.
  Lemma first_occurrence (x y : A) l1 l2 :
    ~ In y l1 -> x <> y -> In x l1 -> exists a b c, dedup (l1 ++ y :: l2) = a ++ x :: b ++ y :: c.
  Proof.
    intros Hy Hne Hx. rewrite dedup_app. cbn [dedup]. cbn [filter].
    destruct (memb_spec y l1) as [Hi|_]; [tauto|]. cbn [negb].
    assert (Hx' : In x (dedup l1)) by (apply dedup_In; exact Hx).
    apply in_split in Hx' as [a [b E]]. rewrite E.
    exists a, b. eexists. rewrite <- app_assoc. cbn [app]. reflexivity.
  Qed.
End Dedup.

Section IO.
  Context {A PO E : Type} `{Eqb A}.
  Variable oreg : od string (option (list string)).
  Notation key := (pkey (pyval A)).

  Lemma key_roundtrip (k : key) : valid_key oreg k ->
    exists d, coerce_dict oreg k = Ok d /\ coerce_tuple oreg d = Ok k.
  Proof.
    destruct k as [s|[|[n|?] vals]]; cbn [valid_key]; try tauto.
    - intro Hs. exists [("name"%string, VStr s)].
      destruct (af_string (A:=A) oreg s Hs) as [_ [_ [H1 H2]]].
      unfold coerce_dict, coerce_tuple. rewrite H1, H2. split; reflexivity.
    - intros [args [H1 [H2 [H3 H4]]]].
      destruct (tuple_dict_tuple (A:=A) oreg n args vals H1 H2 H3 H4) as [d [Hd [Ht _]]].
      exists d. unfold coerce_dict, coerce_tuple. rewrite Hd, Ht. split; reflexivity.
  Qed.
  Lemma keys_roundtrip (ks : list key) : Forall (valid_key oreg) ks ->
    exists ds, mapM (coerce_dict oreg) ks = Ok ds /\ mapM (coerce_tuple oreg) ds = Ok ks /\ length ds = length ks.
  Proof.
    induction 1 as [|k ks Hk _ [ds [H1 [H2 H3]]]]; [exists []; repeat split|].
    destruct (key_roundtrip k Hk) as [d [Hd Ht]]. exists (d :: ds). cbn [mapM].
    rewrite Hd, H1, Ht, H2. cbn. rewrite H3. repeat split.
  Qed.
  Lemma load_obs_dump (ks : list key) : Forall (valid_key oreg) ks -> NoDup ks -> ks <> [] ->
    exists ds, mapM (coerce_dict oreg) ks = Ok ds /\ load_obs oreg (nonempty ds) = Ok ks.
  Proof.
    intros Hv Hnd Hne. destruct (keys_roundtrip ks Hv) as [ds [H1 [H2 H3]]]. exists ds. split; [exact H1|].
    destruct ds as [|d ds]; [destruct ks; [congruence|discriminate]|]. unfold load_obs, nonempty. rewrite H2. cbn [bind].
    rewrite list_deduplicate_eq, dedup_id by exact Hnd. reflexivity.
  Qed.

  (** a list option read back *)
  Definition reread (o : option (list string)) : option (list string) := nonempty (ensurelist o).

  Lemma ml_roundtrip (m : ml key) : Forall (valid_key oreg) (observables m) -> NoDup (observables m) ->
    observables m <> [] ->
    exists d, dump_ml (E:=E) oreg m = Ok d /\
      load_ml oreg d = Ok (mkML (observables m) (reread (exclude_measurements m)) (reread (include_measurements m)) false).
  Proof.
    intros Hv Hnd Hne. destruct (load_obs_dump _ Hv Hnd Hne) as [ds [H1 H2]].
    eexists. unfold dump_ml. rewrite H1. cbn [bind]. split; [reflexivity|].
    unfold load_ml. cbn [y_obs y_exclude y_include]. rewrite H2. reflexivity.
  Qed.

  Lemma fl_roundtrip (default_par : PO) (diff : PO -> list E) (undiff : list E -> result PO)
      (all_pars : PO -> list string) (f : flike A PO) : Forall (valid_key oreg) (fl_obs f) -> NoDup (fl_obs f) -> fl_obs f <> [] ->
    fl_nuisance f <> [] ->
    exists d, dump_fl oreg diff f = Ok d /\
      load_fl oreg default_par undiff all_pars d =
      (do po <- load_par default_par undiff (nonempty (diff (fl_par f)));
       Ok (mkFL (fl_name f) po (fl_fit f) (fl_nuisance f) (fl_obs f) (reread (fl_exclude f)) (reread (fl_include f)))).
  Proof.
    intros Hv Hnd Hne Hnu. destruct (load_obs_dump _ Hv Hnd Hne) as [ds [H1 H2]].
    eexists. unfold dump_fl. rewrite H1. cbn [bind]. split; [reflexivity|].
    unfold load_fl. cbn [y_name y_par y_obs y_fit y_nuisance y_exclude y_include]. rewrite H2.
    destruct (load_par _ _ _) as [po|e]; cbn [bind]; [|reflexivity].
    unfold new_fl. f_equal. f_equal.
    - destruct (fl_fit f); reflexivity.
    - destruct (fl_nuisance f); [congruence|reflexivity].
  Qed.
End IO.

(** Same measurements after rereading the two lists (include list not empty). *)
Section Selection.
  Context {P D : Type} `{Eqb P} `{Eqb D}.
  Variable shuffle : list string -> list string.
  Hypothesis shuffle_perm : forall l, Permutation (shuffle l) l.
  Lemma reread_selection (m : ml P) (reg : od string (cset P D)) :
    exclude_measurements m = None \/ include_measurements m = None ->
    include_measurements m <> Some [] -> include_pseudo m = false ->
    Permutation
      (get_measurements shuffle
        (mkML (observables m) (reread (exclude_measurements m)) (reread (include_measurements m)) false) reg)
      (get_measurements shuffle m reg).
  Proof.
    destruct m as [obs [ex|] [inc|] ip]; cbn [exclude_measurements include_measurements include_pseudo observables].
    - intros [?|?]; discriminate.
    - intros _ _ ->. destruct ex as [|e ex]; [|apply Permutation_refl].
      unfold get_measurements, reread. cbn [exclude_measurements include_measurements nonempty ensurelist].
      eapply Permutation_trans; [|apply Permutation_sym, shuffle_perm].
      assert (Hf : forall l : list string, filter (fun n => negb (memb n [])) l = l).
      { intro l. induction l as [|x l IH]; cbn [filter memb existsb negb]; [reflexivity|f_equal; exact IH]. }
      rewrite Hf. apply Permutation_refl.
    - intros _ Hne ->. destruct inc as [|i inc]; [congruence|apply Permutation_refl].
    - intros _ _ ->. apply Permutation_refl.
  Qed.
End Selection.
