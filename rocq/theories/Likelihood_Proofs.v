From Coq Require Import Permutation.
From Verif Require Import Base BaseLemmas Constraints_Model Constraints_Spec Constraints_Proofs Constraints_Proofs2
  Observables_Model Observables_Proofs Likelihood_Model Likelihood_Spec.

(** ** Names *)
Lemma prefix_cons c s t : String.prefix (String c s) (String c t) = String.prefix s t.
Proof. cbn. destruct (Ascii.ascii_dec c c); [reflexivity|congruence]. Qed.

(** the first piece of [split " "] *)
Fixpoint until_space (s : string) : string :=
  match s with
  | EmptyString => EmptyString
  | String c s' => if Ascii.ascii_dec (Ascii.ascii_of_nat 32) c then EmptyString else String c (until_space s')
  end.
Lemma split_space_head s : forall cur,
  exists l, split_go " " 0 cur s = (rev_string cur "" ++ until_space s)%string :: l.
Proof.
  induction s as [|c s IH]; intro cur; cbn [split_go until_space].
  - exists []. rewrite string_app_nil_r. reflexivity.
  - assert (Hp : String.prefix " " (String c s) = if Ascii.ascii_dec (Ascii.ascii_of_nat 32) c then true else false).
    { unfold String.prefix. change (Ascii.Ascii false false false false false true false false) with (Ascii.ascii_of_nat 32).
      destruct (Ascii.ascii_dec (Ascii.ascii_of_nat 32) c); [destruct s; reflexivity|reflexivity]. }
    rewrite Hp. destruct (Ascii.ascii_dec (Ascii.ascii_of_nat 32) c).
    + eexists. rewrite string_app_nil_r. reflexivity.
    + destruct (IH (String c cur)) as [l E]. exists l. rewrite E. f_equal. cbn [rev_string].
      rewrite rev_string_app. rewrite string_app_assoc. reflexivity.
Qed.
Lemma until_space_app u s : until_space u = u -> until_space (u ++ String (Ascii.ascii_of_nat 32) s) = u.
Proof.
  induction u as [|c u IH]; intro E; [reflexivity|]. cbn [append until_space] in *.
  destruct (Ascii.ascii_dec (Ascii.ascii_of_nat 32) c); [discriminate|]. f_equal. apply IH. congruence.
Qed.
Lemma until_space_inv s u : until_space s = u -> s = u \/ exists r, s = (u ++ String (Ascii.ascii_of_nat 32) r)%string.
Proof.
  revert u; induction s as [|c s IH]; intros u E; cbn [until_space] in E.
  - subst u. left. reflexivity.
  - destruct (Ascii.ascii_dec (Ascii.ascii_of_nat 32) c) as [<-|ne].
    + subst u. right. exists s. reflexivity.
    + subst u. destruct (IH _ eq_refl) as [E|[r E]]; [left; f_equal; exact E|right; exists r; cbn; f_equal; exact E].
Qed.
Lemma is_pseudo_spec n : is_pseudo n = true <-> pseudo_name n.
Proof.
  unfold is_pseudo, split. destruct (split_space_head n "") as [l E]. rewrite E. cbn [rev_string append].
  unfold pseudo_name. split.
  - intro Hb. apply eqb_true in Hb. apply until_space_inv in Hb as [->|[r ->]]; [left; reflexivity|].
    right. exists r. reflexivity.
  - intros [->|[r ->]]; [reflexivity|].
    change ("Pseudo-measurement " ++ r)%string with ("Pseudo-measurement" ++ String (Ascii.ascii_of_nat 32) r)%string.
    rewrite until_space_app by reflexivity. reflexivity.
Qed.

Section Sums.
  Context {L : Type} (z : L) (add : L -> L -> L) (HM : comm_monoid z add).
  Lemma fold_add_acc l : forall a, fold_left add l a = add a (lsum z add l).
  Proof.
    unfold lsum. induction l as [|x l IH]; intro a; cbn [fold_left].
    - rewrite (add_comm HM), (add_zero HM). reflexivity.
    - rewrite IH, (IH (add z x)), (add_zero HM). rewrite (add_assoc HM). reflexivity.
  Qed.
  Lemma lsum_cons x l : lsum z add (x :: l) = add x (lsum z add l).
  Proof. unfold lsum at 1. cbn [fold_left]. rewrite fold_add_acc, (add_zero HM). reflexivity. Qed.
  Lemma lsum_app l l' : lsum z add (l ++ l') = add (lsum z add l) (lsum z add l').
  Proof. unfold lsum at 1. rewrite fold_left_app. apply fold_add_acc. Qed.
  Lemma lsum_perm l l' : Permutation l l' -> lsum z add l = lsum z add l'.
  Proof.
    induction 1 as [|x l l' _ IH|x y l|l1 l2 l3 _ IH1 _ IH2]; [reflexivity| | |congruence].
    - rewrite !lsum_cons, IH. reflexivity.
    - rewrite !lsum_cons, !(add_assoc HM), (add_comm HM y x). reflexivity.
  Qed.
End Sums.

Section LP.
  Context {P D V L : Type} `{EqP : Eqb P} `{EqD : Eqb D}.
  Variable lp : bool -> D -> larg V -> L.
  Variables (lzero : L) (ladd : L -> L -> L).
  Variable shuffle : list string -> list string.
  Hypothesis Hsh : forall l, Permutation (shuffle l) l.
  Hypothesis HM : comm_monoid lzero ladd.
  Notation hreg := (od string (list (cop P D))).

  Lemma od_get_built (reg : hreg) n : od_get n (built reg) = option_map (fun h => after [] h) (od_get n reg).
  Proof.
    unfold built. induction reg as [|[k h] reg IH]; cbn; [reflexivity|]. destruct (eqb n k); [reflexivity|exact IH].
  Qed.

  (** the boolean selection *)
  Definition parts (m : ml P) (nh : string * list (cop P D)) : bool :=
    negb (is_pseudo (fst nh) && negb (include_pseudo m)) &&
    existsb (fun p => memb p (observables m)) (all_parameters (after (P:=P) (D:=D) [] (snd nh))) &&
    match exclude_measurements m, include_measurements m with
    | None, None => true
    | Some ex, _ => negb (memb (fst nh) ex)
    | None, Some inc => memb (fst nh) inc
    end.

  Lemma all_measurements_built (m : ml P) (reg : hreg) :
    all_measurements m (built reg) = map fst (filter (fun nh => negb (is_pseudo (fst nh) && negb (include_pseudo m)) &&
    existsb (fun p => memb p (observables m)) (all_parameters (after (P:=P) (D:=D) [] (snd nh)))) reg).
  Proof.
    unfold all_measurements, built. induction reg as [|[n h] reg IH]; [reflexivity|]. cbn [map filter fst snd].
    destruct (_ && _); cbn [map fst]; rewrite IH; reflexivity.
  Qed.
  Lemma filter_map_fst {X} (f : string -> bool) (l : list (string * X)) :
    filter f (map fst l) = map fst (filter (fun x => f (fst x)) l).
  Proof. induction l as [|[n x] l IH]; [reflexivity|]. cbn. destruct (f n); cbn; rewrite IH; reflexivity. Qed.
  Lemma filter_filter {X} (f g : X -> bool) l : filter g (filter f l) = filter (fun x => f x && g x) l.
  Proof. induction l as [|x l IH]; [reflexivity|]. cbn. destruct (f x); cbn; [destruct (g x)|]; rewrite IH; reflexivity. Qed.

  Lemma get_measurements_perm (m : ml P) (reg : hreg) :
    Permutation (get_measurements shuffle m (built reg)) (map fst (filter (parts m) reg)).
  Proof.
    unfold get_measurements. rewrite all_measurements_built. unfold parts.
    destruct (exclude_measurements m) as [ex|]; [|destruct (include_measurements m) as [inc|]].
    - rewrite Hsh. rewrite filter_map_fst, filter_filter. apply Permutation_refl.
    - rewrite Hsh. rewrite filter_map_fst, filter_filter. apply Permutation_refl.
    - apply Permutation_map. rewrite (filter_ext _ (fun nh => (negb (is_pseudo (fst nh) && negb (include_pseudo m)) &&
    existsb (fun p => memb p (observables m)) (all_parameters (after [] (snd nh))) && true)))
        by (intro; rewrite andb_true_r; reflexivity). apply Permutation_refl.
  Qed.
  Lemma get_measurements_order (m : ml P) (reg : hreg) :
    exclude_measurements m = None -> include_measurements m = None ->
    get_measurements shuffle m (built reg) = map fst (filter (parts m) reg).
  Proof.
    intros E1 E2. unfold get_measurements. rewrite all_measurements_built. unfold parts. rewrite E1, E2.
    f_equal. apply filter_ext. intro. rewrite andb_true_r. reflexivity.
  Qed.

  Definition one_list (m : ml P) : Prop := exclude_measurements m = None \/ include_measurements m = None.

  Lemma parts_spec (m : ml P) n h : one_list m -> (parts m (n, h) = true <-> takes_part m n h).
  Proof.
    intro Hone. unfold parts, takes_part. cbn [fst snd].
    rewrite !andb_true_iff.
    assert (H1 : negb (is_pseudo n && negb (include_pseudo m)) = true <-> (pseudo_name n -> include_pseudo m = true)).
    { rewrite <- is_pseudo_spec. destruct (is_pseudo n), (include_pseudo m); cbn; intuition congruence. }
    assert (H2 : existsb (fun p => memb p (observables m)) (all_parameters (after [] h)) = true <->
                 exists o, In o (observables m) /\ current (rev h) o <> None).
    { rewrite existsb_exists. split; intros [o [A B]]; exists o.
      - apply memb_In in B. split; [exact B|]. apply (all_parameters_spec [] h). exact A.
      - split; [apply (all_parameters_spec [] h); exact B|apply memb_In; exact A]. }
    assert (H3 : match exclude_measurements m, include_measurements m with
             | None, None => true | Some ex, _ => negb (memb n ex) | None, Some inc => memb n inc end = true <->
             (forall ex, exclude_measurements m = Some ex -> ~ In n ex) /\
             (forall inc, include_measurements m = Some inc -> In n inc)).
    { destruct Hone as [->| ->].
      - destruct (include_measurements m) as [inc|].
        + rewrite memb_In. split; [intro Hi; split; [discriminate|intros ? [= <-]; exact Hi]|].
          intros [_ Hi]. apply Hi. reflexivity.
        + split; [intros _; split; discriminate|reflexivity].
      - destruct (exclude_measurements m) as [ex|].
        + rewrite negb_true_iff, memb_notIn. split; [intro Hi; split; [intros ? [= <-]; exact Hi|discriminate]|].
          intros [Hi _]. apply Hi. reflexivity.
        + split; [intros _; split; discriminate|reflexivity]. }
    rewrite H1, H2, H3. tauto.
  Qed.

  Lemma get_measurements_In (m : ml P) (reg : hreg) n : one_list m ->
    (In n (get_measurements shuffle m (built reg)) <-> exists h, In (n, h) reg /\ takes_part m n h).
  Proof.
    intro Hone. split.
    - intro Hin. apply (Permutation_in _ (get_measurements_perm m reg)) in Hin.
      apply in_map_iff in Hin as [[n' h] [<- Hin]]. apply filter_In in Hin as [Hin Hp].
      exists h. split; [exact Hin|]. apply parts_spec; assumption.
    - intros [h [Hin Ht]]. apply (Permutation_in _ (Permutation_sym (get_measurements_perm m reg))).
      apply in_map_iff. exists (n, h). split; [reflexivity|]. apply filter_In. split; [exact Hin|].
      apply parts_spec; assumption.
  Qed.
  Lemma get_measurements_NoDup (m : ml P) (reg : hreg) : NoDup (od_keys reg) ->
    NoDup (get_measurements shuffle m (built reg)).
  Proof.
    intro Hnd. eapply Permutation_NoDup; [apply Permutation_sym, get_measurements_perm|].
    clear - Hnd. unfold od_keys in Hnd. induction reg as [|[n h] reg IH]; cbn; [constructor|].
    inversion Hnd as [|? ? Hni Hnd']; subst. destruct (parts m (n, h)); [|apply IH; exact Hnd'].
    cbn. constructor; [|apply IH; exact Hnd']. intro Hin. apply Hni.
    apply in_map_iff in Hin as [x [E Hin]]. apply filter_In in Hin as [Hin _]. rewrite <- E. apply in_map. exact Hin.
  Qed.

  Lemma new_ml_spec (m : ml P) (reg : hreg) : NoDup (od_keys reg) -> one_list m ->
    (new_ml shuffle m (built reg) = Ok m <->
     forall o, In o (observables m) -> exists n h, In (n, h) reg /\ takes_part m n h /\ current (rev h) o <> None) /\
    (new_ml shuffle m (built reg) = Ok m \/ new_ml shuffle m (built reg) = Err AssertionError).
  Proof.
    intros Hnd Hone. unfold new_ml.
    assert (Ht : truthy (exclude_measurements m) && truthy (include_measurements m) = false).
    { destruct Hone as [-> | ->]; cbn; [reflexivity|apply andb_false_r]. }
    rewrite Ht. set (measured := flat_map _ _).
    assert (Hm : forall o, In o measured <-> exists n h, In (n, h) reg /\ takes_part m n h /\ current (rev h) o <> None).
    { intro o. unfold measured. rewrite in_flat_map. split.
      - intros [n [Hn Ho]]. apply (get_measurements_In m reg n Hone) in Hn as [h [Hin Ht']].
        rewrite od_get_built, (od_In_get _ _ _ Hnd Hin) in Ho. cbn in Ho. apply (all_parameters_spec [] h) in Ho. eauto.
      - intros [n [h [Hin [Ht' Ho]]]]. exists n. split; [apply (get_measurements_In m reg n Hone); eauto|].
        rewrite od_get_built, (od_In_get _ _ _ Hnd Hin). cbn. apply (all_parameters_spec [] h). exact Ho. }
    destruct (forallb (fun o => memb o measured) (observables m)) eqn:Ef.
    - split; [|left; reflexivity]. split; [|reflexivity]. intros _ o Ho. apply Hm.
      rewrite forallb_forall in Ef. apply memb_In. apply Ef. exact Ho.
    - split; [|right; reflexivity]. split; [discriminate|]. intro Hall. exfalso.
      assert (Et : forallb (fun o => memb o measured) (observables m) = true).
      { apply forallb_forall. intros o Ho. apply memb_In. apply Hm. apply Hall. exact Ho. }
      congruence.
  Qed.

  (** ** log-likelihood *)
  Lemma live_excl (m : ml P) excl h c ps p : In p ps ->
    live (rev h) (exclude_parameters m excl (after (P:=P) (D:=D) [] h)) c p =
    live (rev h) (filter (fun p => negb (wanted m excl p)) ps) c p.
  Proof.
    intro Hp. unfold live. destruct (current (rev h) p) as [[i c']|] eqn:Ec; [|rewrite !andb_false_r; reflexivity].
    f_equal. f_equal.
    assert (Hall : In p (all_parameters (after [] h))) by (apply (all_parameters_spec [] h); congruence).
    destruct (memb_spec p (filter (fun p => negb (wanted m excl p)) ps)) as [Hi|Hn].
    - apply filter_In in Hi as [_ Hw]. apply memb_In. unfold exclude_parameters. apply in_or_app.
      unfold wanted in Hw. rewrite negb_andb, negb_involutive in Hw. apply orb_prop in Hw as [Hw|Hw].
      + left. apply filter_In. split; assumption.
      + right. apply memb_In. exact Hw.
    - apply memb_notIn. intro Hi. apply Hn. apply filter_In. split; [exact Hp|].
      unfold wanted. rewrite negb_andb, negb_involutive. unfold exclude_parameters in Hi.
      apply in_app_or in Hi as [Hi|Hi].
      + apply filter_In in Hi as [_ ->]. reflexivity.
      + apply memb_In in Hi. rewrite Hi. apply orb_true_r.
  Qed.

  Lemma live_wanted (m : ml P) excl h c p :
    live (rev h) (exclude_parameters m excl (after (P:=P) (D:=D) [] h)) c p = true ->
    wanted m excl p = true /\ current (rev h) p <> None.
  Proof.
    intro Hl. rewrite (live_excl m excl h c [p] p) in Hl by (left; reflexivity).
    unfold live in Hl. apply andb_prop in Hl as [H1 H2]. split.
    - cbn in H1. destruct (wanted m excl p); [reflexivity|]. cbn in H1. rewrite eqb_refl in H1. discriminate.
    - destruct (current (rev h) p); congruence.
  Qed.

  Lemma flat_map_ext_in' {X Y} (f g : X -> list Y) l : (forall x, In x l -> f x = g x) -> flat_map f l = flat_map g l.
  Proof. induction l as [|x l IH]; cbn; intro Hfg; [reflexivity|]. rewrite (Hfg x), IH; auto. Qed.
  Lemma map_flat_map {X Y Z'} (g : Y -> Z') (f : X -> list Y) l : map g (flat_map f l) = flat_map (fun x => map g (f x)) l.
  Proof. induction l as [|x l IH]; cbn; [reflexivity|]. rewrite map_app, IH. reflexivity. Qed.

  Lemma logprob_terms (m : ml P) excl delta h (pred : od P V) (val : P -> V) : ordinary h ->
    (forall p, wanted m excl p = true -> current (rev h) p <> None -> od_get p pred = Some (val p)) ->
    exists d, get_logprobability_all lp pred (exclude_parameters m excl (after [] h)) delta (after [] h) = Ok d /\
      od_vals d = measurement_terms lp delta val (wanted m excl) h.
  Proof.
    intros Hord Hval. eexists. split.
    - apply (get_logprobability_all_spec lp [] h pred val); [exact Hord|].
      intros c ps p _ _ Hl. apply live_wanted in Hl as [Hw Hc]. auto.
    - unfold od_vals, measurement_terms. rewrite map_flat_map. apply flat_map_ext_in'.
      intros [c ps] Hin. f_equal. apply contribution_local; [|reflexivity].
      intros p Hp. cbn [snd]. apply live_excl. exact Hp.
  Qed.

  Lemma skip_terms (m : ml P) excl delta h (val : P -> V) :
    set_eqb (all_parameters (after [] h)) (exclude_parameters m excl (after [] h)) = true ->
    measurement_terms lp delta val (wanted m excl) h = [].
  Proof.
    intro Hs. unfold measurement_terms. 
    assert (Hg : forall l, (forall cp : D * list P, In cp l -> In cp (additions h)) ->
       flat_map (fun cp => map snd (contribution lp delta val (rev h) (filter (fun p => negb (wanted m excl p)) (snd cp)) cp)) l = []).
    { induction l as [|[c ps] l IH]; intro Hsub; cbn [flat_map]; [reflexivity|].
      rewrite IH by (intros cp Hcp; apply Hsub; right; exact Hcp). rewrite app_nil_r. cbn [snd].
      assert (Hf : filter (live (rev h) (filter (fun p => negb (wanted m excl p)) ps) c) ps = []).
      { assert (Hall : forall p, In p ps -> live (rev h) (filter (fun p => negb (wanted m excl p)) ps) c p = false).
        { intros p Hp. rewrite <- live_excl by exact Hp. unfold live.
          destruct (current (rev h) p) as [[i c']|] eqn:Ec; [|apply andb_false_r].
          unfold set_eqb in Hs. apply andb_prop in Hs as [Hs _]. rewrite forallb_forall in Hs.
          rewrite Hs; [reflexivity|]. apply (all_parameters_spec [] h). congruence. }
        clear - Hall. set (f := live _ _ _) in *. clearbody f. induction ps as [|p ps IHp]; cbn; [reflexivity|].
        rewrite Hall by (left; reflexivity). apply IHp. intros q Hq. apply Hall. right. exact Hq. }
      unfold contribution. rewrite Hf. reflexivity. }
    apply Hg. auto.
  Qed.

  Lemma ll_step_spec (m : ml P) (reg : hreg) pred val excl delta n h ll :
    od_get n reg = Some h -> ordinary h ->
    (forall p, wanted m excl p = true -> current (rev h) p <> None -> od_get p pred = Some (val p)) ->
    ll_step lp lzero ladd m (built reg) pred excl delta ll n
    = Ok (ladd ll (lsum lzero ladd (measurement_terms lp delta val (wanted m excl) h))).
  Proof.
    intros Hn Hord Hval. unfold ll_step. rewrite od_get_built, Hn. cbn [option_map].
    destruct (set_eqb _ _) eqn:Es.
    - rewrite skip_terms by exact Es. unfold lsum. cbn. rewrite (add_comm HM), (add_zero HM). reflexivity.
    - destruct (logprob_terms m excl delta h pred val Hord Hval) as [d [E Hd]]. rewrite E. cbn [bind].
      rewrite Hd. reflexivity.
  Qed.

  Lemma log_likelihood_spec (m : ml P) (reg : hreg) pred (val : P -> V) excl delta :
    NoDup (od_keys reg) -> one_list m ->
    (forall n h, In (n, h) reg -> takes_part m n h -> ordinary h /\
       forall p, wanted m excl p = true -> current (rev h) p <> None -> od_get p pred = Some (val p)) ->
    log_likelihood_pred lp lzero ladd shuffle m (built reg) pred excl delta
    = Ok (lsum lzero ladd (flat_map (fun nh => measurement_terms lp delta val (wanted m excl) (snd nh))
                             (filter (parts m) reg))).
  Proof.
    intros Hnd Hone Hh. unfold log_likelihood_pred.
    assert (Hg : forall l ll, (forall n, In n l -> exists h, In (n, h) reg /\ takes_part m n h) ->
      foldM (ll_step lp lzero ladd m (built reg) pred excl delta) l ll =
      Ok (ladd ll (lsum lzero ladd (flat_map (fun n => match od_get n reg with
           | Some h => measurement_terms lp delta val (wanted m excl) h | None => [] end) l)))).
    { induction l as [|n l IH]; intros ll Hsub; cbn [foldM flat_map].
      - unfold lsum. cbn. rewrite (add_comm HM), (add_zero HM). reflexivity.
      - destruct (Hsub n) as [h [Hin Ht]]; [left; reflexivity|]. destruct (Hh n h Hin Ht) as [Hord Hval].
        pose proof (od_In_get _ _ _ Hnd Hin) as Hget.
        rewrite (ll_step_spec m reg pred val excl delta n h ll Hget Hord Hval). cbn [bind].
        rewrite IH by (intros n' Hn'; apply Hsub; right; exact Hn').
        rewrite Hget. rewrite (lsum_app _ _ HM), (add_assoc HM). reflexivity. }
    rewrite Hg by (intros n Hn; apply (get_measurements_In m reg n Hone); exact Hn).
    rewrite (add_zero HM). f_equal. apply (lsum_perm _ _ HM).
    rewrite (Permutation_flat_map _ (get_measurements_perm m reg)).
    assert (Hfm : forall l, (forall nh, In nh l -> In nh reg) ->
       flat_map (fun n => match od_get n reg with Some h => measurement_terms lp delta val (wanted m excl) h | None => [] end) (map fst l)
       = flat_map (fun nh => measurement_terms lp delta val (wanted m excl) (snd nh)) l).
    { induction l as [|[n h] l IH]; intro Hsub; cbn [map flat_map fst snd]; [reflexivity|].
      rewrite (od_In_get _ _ _ Hnd (Hsub (n, h) (or_introl eq_refl))).
      rewrite IH by (intros nh Hn; apply Hsub; right; exact Hn). reflexivity. }
    rewrite Hfm; [apply Permutation_refl|]. intros nh Hn. apply filter_In in Hn as [Hn _]. exact Hn.
  Qed.

  Lemma log_likelihood_missing (m : ml P) (reg : hreg) pred excl delta n h p :
    NoDup (od_keys reg) -> one_list m ->
    (forall n h, In (n, h) reg -> takes_part m n h -> ordinary h) ->
    In (n, h) reg -> takes_part m n h -> wanted m excl p = true -> current (rev h) p <> None ->
    od_get p pred = None ->
    log_likelihood_pred lp lzero ladd shuffle m (built reg) pred excl delta = Err KeyError.
  Proof.
    intros Hnd Hone Hord Hin Ht Hw Hc Hp. unfold log_likelihood_pred.
    assert (Hstep : forall n' h' ll, In (n', h') reg -> takes_part m n' h' ->
       (exists v, ll_step lp lzero ladd m (built reg) pred excl delta ll n' = Ok v) \/
       ll_step lp lzero ladd m (built reg) pred excl delta ll n' = Err KeyError).
    { intros n' h' ll Hi' Ht'. unfold ll_step. rewrite od_get_built, (od_In_get _ _ _ Hnd Hi'). cbn [option_map].
      destruct (set_eqb _ _); [left; eexists; reflexivity|].
      assert (Hga : (exists d, get_logprobability_all lp pred (exclude_parameters m excl (after [] h')) delta (after [] h') = Ok d) \/
        get_logprobability_all lp pred (exclude_parameters m excl (after [] h')) delta (after [] h') = Err KeyError).
      { unfold get_logprobability_all. generalize (cons (after [] h')) as l. generalize (@nil (D * L)) as acc.
        intros acc l. revert acc. induction l as [|[c ps] l IH]; intro acc; cbn [foldM]; [left; eexists; reflexivity|].
        unfold logprob_step at 1 3.
        assert (Hm : forall q, (exists x, mapM (fun p => match od_get p pred with Some v => Ok v | None => Err KeyError end) q = Ok x) \/
                   mapM (fun p => match od_get p pred with Some v => Ok v | None => Err KeyError end) q = Err KeyError).
        { induction q as [|a q [[x IHq]|IHq]]; cbn; [eauto| |]; destruct (od_get a pred); cbn; rewrite ?IHq; cbn; eauto. }
        destruct (Hm (p_cons (exclude_parameters m excl (after [] h')) (after [] h') c ps)) as [[x Ex]|Ex]; rewrite Ex; cbn [bind]; [|right; reflexivity].
        destruct x as [|x0 x]; [apply IH|]. destruct (Nat.eqb (length ps) 1); apply IH. }
      destruct Hga as [[d E]|E]; rewrite E; cbn; [left; eexists; reflexivity|right; reflexivity]. }
    assert (Hbad : forall ll, ll_step lp lzero ladd m (built reg) pred excl delta ll n = Err KeyError).
    { intro ll. unfold ll_step. rewrite od_get_built, (od_In_get _ _ _ Hnd Hin). cbn [option_map].
      destruct (current (rev h) p) as [[i c]|] eqn:Ec; [|congruence].
      assert (Hall : In p (all_parameters (after [] h))) by (apply (all_parameters_spec [] h); congruence).
      assert (Hne : ~ In p (exclude_parameters m excl (after [] h))).
      { unfold exclude_parameters. intro Hi. unfold wanted in Hw. apply andb_prop in Hw as [H1 H2].
        apply in_app_or in Hi as [Hi|Hi].
        - apply filter_In in Hi as [_ Hi]. rewrite H1 in Hi. discriminate.
        - apply memb_In in Hi. rewrite Hi in H2. discriminate. }
      replace (set_eqb _ _) with false.
      2:{ symmetry. unfold set_eqb. apply andb_false_intro1. apply not_true_iff_false. intro Hf.
          rewrite forallb_forall in Hf. apply Hne. apply memb_In. apply Hf. exact Hall. }
      destruct (current_addition _ _ Ec) as [ps [Ha Hl]].
      rewrite (get_logprobability_all_missing lp [] h pred _ delta c ps p); [reflexivity|eauto|exact Ha| | |exact Hp].
      - apply last_index_nth in Hl. eapply nth_error_In. exact Hl.
      - unfold live. rewrite Ec, eqb_refl. apply memb_notIn in Hne. rewrite Hne. reflexivity. }
    assert (Hg : forall l ll, (forall n, In n l -> exists h, In (n, h) reg /\ takes_part m n h) -> In n l ->
       foldM (ll_step lp lzero ladd m (built reg) pred excl delta) l ll = Err KeyError).
    { induction l as [|n' l IH]; intros ll Hsub Hn; [destruct Hn|]. cbn [foldM].
      destruct Hn as [->|Hn]; [rewrite Hbad; reflexivity|].
      destruct (Hsub n') as [h' [Hi' Ht']]; [left; reflexivity|].
      destruct (Hstep n' h' ll Hi' Ht') as [[v E]|E]; rewrite E; cbn [bind]; [|reflexivity].
      apply IH; [intros x Hx; apply Hsub; right; exact Hx|exact Hn]. }
    apply Hg.
    - intros n' Hn'. apply (get_measurements_In m reg n' Hone). exact Hn'.
    - apply (get_measurements_In m reg n Hone). eauto.
  Qed.

  (** ** number of observations *)
  Lemma count_one (m : ml P) excl (h : list (cop P D)) :
    length (filter (fun p => memb p (filter (fun p => negb (memb p excl)) (dedup (observables m)))) (all_parameters (after [] h)))
    = length (filter (fun o => wanted m excl o && match current (rev h) o with Some _ => true | None => false end) (dedup (observables m))).
  Proof.
    apply Permutation_length. apply NoDup_Permutation.
    - apply NoDup_filter'. apply (all_parameters_spec [] h).
    - apply NoDup_filter'. apply dedup_NoDup.
    - intro p. rewrite !filter_In, memb_In, filter_In, dedup_In.
      unfold wanted. rewrite !andb_true_iff, memb_In.
      pose proof (proj2 (all_parameters_spec [] h) p) as Ha. rewrite Ha.
      destruct (current (rev h) p); intuition congruence.
  Qed.

  Lemma number_spec (m : ml P) (reg : hreg) excl : NoDup (od_keys reg) -> one_list m ->
    get_number_observations shuffle m (built reg) excl = Ok (length (observations m excl (parts m) reg)).
  Proof.
    intros Hnd Hone. unfold get_number_observations, observations.
    assert (Hg : forall l n0, (forall n, In n l -> exists h, In (n, h) reg /\ takes_part m n h) ->
      foldM (fun n name => match od_get name (built reg) with
        | None => Err KeyError
        | Some c => let ours := filter (fun p => negb (memb p excl)) (dedup (observables m)) in
                    Ok (n + length (filter (fun p => memb p ours) (all_parameters c)))
        end) l n0 =
      Ok (n0 + length (flat_map (fun n => match od_get n reg with
           | Some h => map (fun o => (n, o)) (filter (fun o => wanted m excl o && match current (rev h) o with Some _ => true | None => false end) (dedup (observables m)))
           | None => [] end) l))).
    { induction l as [|n l IH]; intros n0 Hsub; cbn [foldM flat_map]; [cbn; f_equal; lia|].
      destruct (Hsub n) as [h [Hin Ht]]; [left; reflexivity|].
      rewrite od_get_built, (od_In_get _ _ _ Hnd Hin). cbn [option_map bind]. cbv zeta.
      rewrite IH by (intros n' Hn'; apply Hsub; right; exact Hn').
      rewrite count_one, app_length, map_length. f_equal. lia. }
    rewrite Hg by (intros n Hn; apply (get_measurements_In m reg n Hone); exact Hn).
    f_equal. cbn [plus]. rewrite (Permutation_length (Permutation_flat_map _ (get_measurements_perm m reg))).
    f_equal.
    assert (Hfm : forall l, (forall nh, In nh l -> In nh reg) ->
       flat_map (fun n => match od_get n reg with
           | Some h => map (fun o => (n, o)) (filter (fun o => wanted m excl o && match current (rev h) o with Some _ => true | None => false end) (dedup (observables m)))
           | None => [] end) (map fst l)
       = flat_map (fun nh => map (fun o => (fst nh, o)) (filter (fun o => wanted m excl o && match current (rev (snd nh)) o with Some _ => true | None => false end) (dedup (observables m)))) l).
    { induction l as [|[n h] l IH]; intro Hsub; cbn [map flat_map fst snd]; [reflexivity|].
      rewrite (od_In_get _ _ _ Hnd (Hsub (n, h) (or_introl eq_refl))).
      rewrite IH by (intros nh Hn; apply Hsub; right; exact Hn). reflexivity. }
    apply Hfm. intros nh Hn. apply filter_In in Hn as [Hn _]. exact Hn.
  Qed.

  (** ** parameter likelihood *)
  Lemma parameter_ll_spec h (ps : list P) par (val : P -> V) delta : ordinary h ->
    (forall p, In p ps -> current (rev h) p <> None -> od_get p par = Some (val p)) ->
    parameter_ll lp lzero ladd (after [] h) (Some ps) par delta
    = Ok (lsum lzero ladd (measurement_terms lp delta val (fun p => memb p ps) h)).
  Proof.
    intros Hord Hval. unfold parameter_ll.
    set (m := mkML ps None None false).
    assert (Hex : filter (fun p => negb (memb p ps)) (all_parameters (after [] h)) = exclude_parameters m [] (after [] h)).
    { unfold exclude_parameters. rewrite app_nil_r. reflexivity. }
    rewrite Hex.
    destruct (logprob_terms m [] delta h par val Hord) as [d [E Hd]].
    { intros p Hw Hc. apply Hval; [|exact Hc]. unfold wanted in Hw. apply andb_prop in Hw as [Hw _]. apply memb_In. exact Hw. }
    rewrite E. cbn [bind]. rewrite Hd. f_equal. f_equal. unfold measurement_terms.
    apply flat_map_ext_in'. intros [c ps'] _. f_equal. cbn [snd]. f_equal. apply filter_ext. intro p.
    unfold wanted. cbn. rewrite andb_true_r. reflexivity.
  Qed.
End LP.

(** ** Cache *)
Section CacheProofs.
  Context {Arg Pred W : Type}.
  Variable hash : Arg -> Z.
  Variable compute : W -> Arg -> result Pred.

  (** what is cached was computed in some earlier call with the same hash *)
  Lemma cache_inv calls :
    match cache_run hash compute calls cache0 with
    | None => True
    | Some (h, v) => exists w a, In (w, a) calls /\ hash a = h /\ compute w a = Ok v
    end.
  Proof.
    induction calls as [|[w a] calls IH] using rev_ind; [exact I|].
    unfold cache_run in *. rewrite fold_left_app. cbn [fold_left fst snd].
    set (c := fold_left _ calls cache0) in *. unfold get_predictions.
    assert (Hold : match c with None => True
       | Some (h, v) => exists w0 a0, In (w0, a0) (calls ++ [(w, a)]) /\ hash a0 = h /\ compute w0 a0 = Ok v end).
    { destruct c as [[h v]|]; [|exact I]. destruct IH as [w0 [a0 [Hin Hr]]]. exists w0, a0.
      split; [apply in_or_app; left; exact Hin|exact Hr]. }
    assert (Hnew : match fst (match compute w a with Ok v' => (Some (hash a, v'), Ok v') | Err e => (c, Err e) end) with
       | None => True | Some (h, v) => exists w0 a0, In (w0, a0) (calls ++ [(w, a)]) /\ hash a0 = h /\ compute w0 a0 = Ok v end).
    { destruct (compute w a) as [v'|e] eqn:E; cbn [fst]; [|exact Hold].
      exists w, a. split; [apply in_or_app; right; left; reflexivity|]. split; [reflexivity|exact E]. }
    destruct c as [[h v]|] eqn:Ec; [|exact Hnew].
    destruct (Z.eqb (hash a) h); [exact Hold|exact Hnew].
  Qed.

  Lemma cache_transparent calls w a :
    (forall w' a', In (w', a') calls -> hash a' = hash a -> compute w' a' = compute w a) ->
    snd (get_predictions hash compute w a (cache_run hash compute calls cache0)) = compute w a.
  Proof.
    intro Hinj. pose proof (cache_inv calls) as Hi.
    destruct (cache_run hash compute calls cache0) as [[h v]|]; unfold get_predictions.
    - destruct (Z.eqb_spec (hash a) h) as [e|ne].
      + destruct Hi as [w' [a' [Hin [Hh Hv]]]]. cbn [snd]. rewrite <- Hv. apply Hinj; [exact Hin|congruence].
      + destruct (compute w a); reflexivity.
    - destruct (compute w a); reflexivity.
  Qed.
End CacheProofs.

(** ** Warnings about correlated measurements *)
Section Corr.
  Context {P D V L : Type} `{EqP : Eqb P} `{EqD : Eqb D}.
  Variable shuffle : list string -> list string.
  Hypothesis Hsh : forall l, Permutation (shuffle l) l.
  Notation hreg := (od string (list (cop P D))).
  Definition b2n (b : bool) : nat := if b then 1 else 0.

  Lemma listed_add (obs q o p : P) acc :
    listed o p (corr_add obs acc q) = listed o p acc + b2n (eqb p q && eqb o obs).
  Proof.
    unfold listed, corr_add. destruct (od_get q acc) as [l|] eqn:E; rewrite od_get_set;
      destruct (eqb_spec p q) as [->|ne]; cbn [andb b2n]; try lia.
    - rewrite E, filter_app, app_length. f_equal. cbn. destruct (eqb o obs); reflexivity.
    - rewrite E. cbn. destruct (eqb o obs); reflexivity.
  Qed.
  Lemma listed_fold (obs o p : P) ps : NoDup ps -> forall acc,
    listed o p (fold_left (corr_add obs) ps acc) = listed o p acc + b2n (memb p ps && eqb o obs).
  Proof.
    induction ps as [|q ps IH]; intros Hnd acc; cbn [fold_left]; [cbn; lia|].
    inversion Hnd as [|? ? Hni Hnd']; subst. rewrite IH by exact Hnd'. rewrite listed_add.
    unfold memb. cbn [existsb]. fold (memb p ps). destruct (eqb_spec p q) as [->|ne]; cbn [orb andb]; [|cbn [b2n]; lia].
    destruct (memb_spec q ps); [tauto|]. cbn. destruct (eqb o obs); cbn; lia.
  Qed.

  Lemma first_list_spec (h : list (cop P D)) d p : ordinary h ->
    (existsb (fun cp => eqb (fst cp) d && memb p (snd cp)) (additions h) = true <->
     exists ps, first_list (after [] h) d = Some ps /\ In p ps) /\
    (forall ps, first_list (after [] h) d = Some ps -> NoDup ps).
  Proof.
    intros Hord. unfold first_list. rewrite after_cons. split.
    - rewrite existsb_exists. split.
      + intros [[d' ps] [Hin Hb]]. cbn [fst snd] in Hb. apply andb_prop in Hb as [H1 H2]. apply eqb_true in H1. subst d'.
        destruct (List.find (fun cp => eqb (fst cp) d) (additions h)) as [[d' ps']|] eqn:Ef.
        * apply find_some in Ef as [Hin' He]. cbn in He. apply eqb_true in He. subst d'.
          exists ps'. split; [reflexivity|]. rewrite (ordinary_unique _ _ _ Hord Hin' Hin). apply memb_In. exact H2.
        * exfalso. pose proof (find_none _ _ Ef _ Hin) as Hc. cbn in Hc. rewrite eqb_refl in Hc. discriminate.
      + intros [ps [E Hp]]. destruct (List.find (fun cp => eqb (fst cp) d) (additions h)) as [[d' ps']|] eqn:Ef; [|discriminate].
        cbn in E. injection E as ->. apply find_some in Ef as [Hin He]. exists (d', ps). split; [exact Hin|].
        cbn [fst snd] in *. rewrite He. apply memb_In. exact Hp.
    - intros ps E. destruct (List.find (fun cp => eqb (fst cp) d) (additions h)) as [[d' ps']|] eqn:Ef; [|discriminate].
      cbn in E. injection E as ->. apply find_some in Ef as [Hin He]. destruct Hord as [_ Hf].
      rewrite Forall_forall in Hf. exact (Hf _ Hin).
  Qed.

  Lemma listed_obs (m : ml P) (h : list (cop P D)) obs o p acc : ordinary h ->
    listed o p (corr_obs m (after [] h) acc obs)
    = listed o p acc + b2n (eqb o obs && correlates h o p && negb (memb p (observables m))).
  Proof.
    intro Hord. unfold corr_obs, correlates. rewrite after_get.
    destruct (eqb_spec o obs) as [->|ne].
    - destruct (current (rev h) obs) as [[i d]|]; [|cbn; lia].
      destruct (first_list_spec h d p Hord) as [Hs Hnd].
      destruct (first_list (after [] h) d) as [ps|].
      + rewrite listed_fold by (apply NoDup_filter'; auto). rewrite eqb_refl, andb_true_r. cbn [andb]. f_equal. f_equal.
        destruct (existsb _ _).
        * destruct Hs as [[ps' [[= <-] Hp]] _]; [reflexivity|]. cbn [andb].
          destruct (memb_spec p (filter (fun p => negb (memb p (observables m))) ps)) as [Hi|Hn].
          -- apply filter_In in Hi as [_ Hi]. symmetry. exact Hi.
          -- destruct (memb p (observables m)) eqn:E; [reflexivity|]. exfalso. apply Hn. apply filter_In.
             rewrite E. split; [exact Hp|reflexivity].
        * cbn [andb]. apply memb_notIn. intro Hi. apply filter_In in Hi as [Hi _].
          destruct Hs as [_ Hs]. discriminate Hs. eexists. split; [reflexivity|exact Hi].
      + destruct (existsb _ _); [|cbn; lia]. destruct Hs as [[ps' [Hc _]] _]; [reflexivity|discriminate].
    - cbn [andb b2n]. rewrite Nat.add_0_r.
      destruct (current (rev h) obs) as [[i d]|]; [|reflexivity].
      destruct (first_list_spec h d p Hord) as [Hs Hnd].
      destruct (first_list (after [] h) d) as [ps|]; [|reflexivity].
      rewrite listed_fold by (apply NoDup_filter'; auto). apply neq_eqb in ne. rewrite ne, andb_false_r. cbn. lia.
  Qed.

  Lemma listed_measurement (m : ml P) (h : list (cop P D)) o p l : ordinary h -> NoDup l -> forall acc,
    listed o p (fold_left (corr_obs m (after [] h)) l acc)
    = listed o p acc + b2n (memb o l && correlates h o p && negb (memb p (observables m))).
  Proof.
    intros Hord. induction l as [|obs l IH]; intros Hnd acc; cbn [fold_left]; [cbn; lia|].
    inversion Hnd as [|? ? Hni Hnd']; subst. rewrite IH by exact Hnd'. rewrite listed_obs by exact Hord.
    change (memb o (obs :: l)) with (eqb o obs || memb o l). destruct (eqb_spec o obs) as [->|ne]; cbn [orb andb]; [|cbn; lia].
    destruct (memb_spec obs l); [tauto|]. cbn. lia.
  Qed.

  Lemma corr_with_spec (m : ml P) (reg : hreg) o p : NoDup (od_keys reg) -> one_list m ->
    (forall n h, In (n, h) reg -> takes_part m n h -> ordinary h) -> In o (observables m) ->
    listed o p (corr_with shuffle m (built reg))
    = if memb p (observables m) then 0
      else length (filter (fun nh => parts m nh && correlates (snd nh) o p) reg).
  Proof.
    intros Hnd Hone Hord Ho. unfold corr_with.
    assert (Hg : forall l acc, (forall n, In n l -> exists h, In (n, h) reg /\ takes_part m n h) ->
      listed o p (fold_left (fun acc name => match od_get name (built reg) with
        | None => acc
        | Some c => fold_left (corr_obs m c) (filter (fun o => memb o (all_parameters c)) (dedup (observables m))) acc
        end) l acc) = listed o p acc + length (filter (fun n => match od_get n reg with
           | Some h => correlates h o p && negb (memb p (observables m)) | None => false end) l)).
    { induction l as [|n l IH]; intros acc Hsub; cbn [fold_left filter]; [cbn; lia|].
      destruct (Hsub n) as [h [Hin Ht]]; [left; reflexivity|].
      rewrite IH by (intros n' Hn'; apply Hsub; right; exact Hn').
      rewrite od_get_built, (od_In_get _ _ _ Hnd Hin). cbn [option_map].
      rewrite listed_measurement; [|eauto|apply NoDup_filter', dedup_NoDup].
      assert (Hm : memb o (filter (fun o => memb o (all_parameters (after [] h))) (dedup (observables m))) && correlates h o p = correlates h o p).
      { destruct (correlates h o p) eqn:Ec; [|apply andb_false_r]. rewrite andb_true_r. apply memb_In. apply filter_In.
        split; [apply dedup_In; exact Ho|]. apply memb_In. apply (all_parameters_spec [] h).
        unfold correlates in Ec. destruct (current (rev h) o); congruence. }
      rewrite Hm. destruct (correlates h o p && negb (memb p (observables m))); cbn; lia. }
    rewrite Hg by (intros n Hn; apply (get_measurements_In shuffle Hsh m reg n Hone); exact Hn).
    unfold listed at 1. cbn [od_get filter length plus].
    assert (Hperm : forall (f : string -> bool) a b, Permutation a b -> length (filter f a) = length (filter f b)).
    { intros f a b Hp. induction Hp as [|x a b _ IH|x y a|a b c _ IH1 _ IH2]; cbn; [reflexivity| | |congruence].
      - destruct (f x); cbn; congruence.
      - destruct (f x), (f y); reflexivity. }
    rewrite (Hperm _ _ _ (get_measurements_perm shuffle Hsh m reg)).
    assert (Hfm : forall l, (forall nh, In nh l -> In nh reg) ->
       length (filter (fun n => match od_get n reg with Some h => correlates h o p && negb (memb p (observables m)) | None => false end)
                  (map fst (filter (parts m) l)))
       = if memb p (observables m) then 0 else length (filter (fun nh => parts m nh && correlates (snd nh) o p) l)).
    { induction l as [|[n h] l IH]; intro Hsub; [destruct (memb p (observables m)); reflexivity|]. cbn [filter snd].
      specialize (IH (fun nh Hn => Hsub nh (or_intror Hn))).
      destruct (parts m (n, h)); cbn [map filter fst andb]; [|exact IH].
      rewrite (od_In_get _ _ _ Hnd (Hsub (n, h) (or_introl eq_refl))).
      destruct (correlates h o p); cbn [andb]; [|exact IH].
      destruct (memb p (observables m)); [exact IH|]. cbv beta iota delta [negb]. cbn [length]. f_equal. exact IH. }
    apply Hfm. auto.
  Qed.
End Corr.

Section Local.
  Context {P D V L : Type} `{EqP : Eqb P} `{EqD : Eqb D}.
  Variable lp : bool -> D -> larg V -> L.
  Lemma terms_local delta (val val' : P -> V) want h :
    (forall p, want p = true -> current (rev h) p <> None -> val p = val' p) ->
    measurement_terms lp delta val want h = measurement_terms lp delta val' want h.
  Proof.
    intro Hv. unfold measurement_terms. apply flat_map_ext_in'. intros [c ps] _. f_equal. cbn [snd].
    apply contribution_local; [reflexivity|]. intros p Hp Hl. unfold live in Hl. apply andb_prop in Hl as [H1 H2].
    apply Hv.
    - apply negb_true_iff, memb_notIn in H1. destruct (want p) eqn:E; [reflexivity|]. exfalso. apply H1.
      apply filter_In. rewrite E. split; [exact Hp|reflexivity].
    - destruct (current (rev h) p); congruence.
  Qed.
End Local.

Lemma NoDup_map_pair {X Y} (n : X) (l : list Y) : NoDup l -> NoDup (map (fun o => (n, o)) l).
Proof.
  induction 1 as [|x l Hni _ IH]; cbn; constructor; [|exact IH].
  intro Hin. apply in_map_iff in Hin as [y [[= ->] Hy]]. exact (Hni Hy).
Qed.
Lemma NoDup_app' {X} (a b : list X) : NoDup a -> NoDup b -> (forall x, In x a -> ~ In x b) -> NoDup (a ++ b).
Proof.
  induction 1 as [|x a Hni _ IH]; cbn; [auto|]. intros Hb Hd. constructor.
  - intro Hin. apply in_app_or in Hin as [Hin|Hin]; [exact (Hni Hin)|]. apply (Hd x); [left; reflexivity|exact Hin].
  - apply IH; [exact Hb|]. intros y Hy. apply Hd. right. exact Hy.
Qed.
Lemma observations_spec {P D} `{EqP : Eqb P} (m : ml P) excl part (reg : od string (list (cop P D))) :
  NoDup (od_keys reg) ->
  NoDup (observations m excl part reg) /\
  forall n o, In (n, o) (observations m excl part reg) <->
    exists h, In (n, h) reg /\ part (n, h) = true /\ In o (observables m) /\ ~ In o excl /\ current (rev h) o <> None.
Proof.
  intro Hnd.
  assert (Hin : forall n o, In (n, o) (observations m excl part reg) <->
    exists h, In (n, h) reg /\ part (n, h) = true /\ In o (observables m) /\ ~ In o excl /\ current (rev h) o <> None).
  { intros n o. unfold observations. rewrite in_flat_map. split.
    - intros [[n' h] [Hf Hm]]. cbn [fst snd] in Hm. apply filter_In in Hf as [Hr Hp].
      apply in_map_iff in Hm as [o' [[= <- <-] Ho]]. apply filter_In in Ho as [Ho Hw].
      apply andb_prop in Hw as [Hw Hc]. unfold wanted in Hw. apply andb_prop in Hw as [H1 H2].
      exists h. split; [exact Hr|]. split; [exact Hp|]. split; [apply memb_In; exact H1|].
      split; [apply memb_notIn, negb_true_iff; exact H2|]. destruct (current (rev h) o'); congruence.
    - intros [h [Hr [Hp [Ho [He Hc]]]]]. exists (n, h). split; [apply filter_In; auto|]. cbn [fst snd].
      apply in_map. apply filter_In. split; [apply dedup_In; exact Ho|]. unfold wanted.
      apply memb_In in Ho. apply memb_notIn in He. rewrite Ho, He. destruct (current (rev h) o); [reflexivity|congruence]. }
  split; [|exact Hin]. clear Hin. unfold observations. unfold od_keys in Hnd.
  induction reg as [|[n h] reg IH]; cbn [filter flat_map]; [constructor|].
  cbn [map fst] in Hnd. inversion Hnd as [|? ? Hni Hnd']; subst. specialize (IH Hnd').
  destruct (part (n, h)); [|exact IH]. cbn [flat_map fst snd]. apply NoDup_app'; [|exact IH|].
  - apply NoDup_map_pair, NoDup_filter', dedup_NoDup.
  - intros [n' o] H1 H2. apply in_map_iff in H1 as [o' [[= <- <-] _]].
    apply in_flat_map in H2 as [[n2 h2] [Hf Hm]]. apply filter_In in Hf as [Hr _].
    apply in_map_iff in Hm as [o2 [[= -> ->] _]]. apply Hni. apply (in_map fst) in Hr. exact Hr.
Qed.
