From Coq Require Import Reals Lra Lia Permutation.
From Verif Require Import Base BaseLemmas Dist_Model Dist_Spec Dist_Proofs Dist_Proofs2.
Local Open Scope R_scope.

Section Dist.
  Context {Num : Type}.
  Variable num_central : Num -> R.
  Notation central := (central num_central).
  Notation dist := (dist Num).
  Variable from_pd : dist -> result Num.
  Variable convolve_num : bool -> list Num -> result Num.
  Notation convolve := (convolve num_central from_pd convolve_num).

  Lemma filter_sub {A} (f g : A -> bool) l : (forall x, f x = true -> g x = true) -> filter f (filter g l) = filter f l.
  Proof.
    intro H. induction l as [|x l IH]; [reflexivity|]. cbn. destruct (g x) eqn:Eg; cbn; rewrite ?IH; [reflexivity|].
    destruct (f x) eqn:Ef; [|reflexivity]. rewrite (H x Ef) in Eg. discriminate.
  Qed.
  Lemma convolve_delta_neutral (l : list dist) c : (forall d, In d l -> central d = c) ->
    (2 <= length (filter (fun d => negb (is_delta d)) l))%nat ->
    convolve Same l = convolve Same (filter (fun d => negb (is_delta d)) l).
  Proof.
    intros Hc Hlen. set (l' := filter (fun d => negb (is_delta d)) l) in *.
    assert (Hc' : forall d, In d l' -> central d = c) by (intros d Hd; apply filter_In in Hd as [Hd _]; auto).
    assert (Hn : filter is_normal l' = filter is_normal l) by (apply filter_sub; intros []; cbn; congruence).
    assert (Ho : filter is_other l' = filter is_other l) by (apply filter_sub; intros []; cbn; congruence).
    assert (Hge : (length l' <= length l)%nat).
    { unfold l'. clear. induction l as [|x l IH]; cbn; [lia|]. destruct (negb (is_delta x)); cbn; lia. }
    unfold Dist_Model.convolve, convolve_univariate.
    destruct l as [|d0 [|d1 l]]; [cbn in *; lia|cbn in *; lia|]. set (l0 := d0 :: d1 :: l) in *.
    destruct l' as [|e0 [|e1 l1]] eqn:El; [cbn in *; lia|cbn in *; lia|]. assert (Hin : In e0 l') by (rewrite El; left; reflexivity). rewrite <- El in *. clear El.
    assert (forallb (fun p => req (central p) (central d0)) l0 = true) as ->.
    { apply forallb_forall. intros d Hd. apply req_true. rewrite (Hc d Hd), (Hc d0); [reflexivity|left; reflexivity]. }
    assert (forallb (fun p => req (central p) (central e0)) l' = true) as ->.
    { apply forallb_forall. intros d Hd. apply req_true. rewrite (Hc' d Hd), (Hc' e0); [reflexivity|exact Hin]. }
    cbn [andb negb]. rewrite Hn, Ho. destruct (filter is_other l0) as [|o os] eqn:Eo; [|reflexivity].
    destruct (filter is_normal l0) as [|n ns] eqn:En; [|reflexivity]. exfalso.
    assert (Hin0 : In e0 l0) by (apply filter_In in Hin as [Hin _]; exact Hin).
    assert (Hnd : is_delta e0 = false) by (apply filter_In in Hin as [_ H]; destruct (is_delta e0); [discriminate|reflexivity]).
    destruct (is_normal e0) eqn:E1.
    - assert (In e0 (filter is_normal l0)) by (apply filter_In; auto). rewrite En in *. contradiction.
    - assert (In e0 (filter is_other l0)) by (apply filter_In; unfold is_other; rewrite E1, Hnd; auto). rewrite Eo in *. contradiction.
  Qed.

  (** ** dictionaries *)
  Variable norm_ppf : R -> R.
  Variable gamma_ppf gamma_cdf : R -> R -> R -> R -> R.
  Notation dict2dist := (dict2dist (Num := Num) norm_ppf gamma_ppf gamma_cdf).

  (** distributions returned by a constructor *)
  Definition constructed (d : dist) : Prop :=
    (exists c h, mk_uniform c h = Ok d) \/ (exists lo hi c, mk_discrete_uniform lo hi c = Ok d) \/ (exists c, mk_delta c = Ok d) \/
    (exists c s, mk_normal c s = Ok d) \/ (exists c f, mk_lognormal c f = Ok d) \/ (exists c r l, mk_asymmetric c r l = Ok d) \/
    (exists c s, mk_half c s = Ok d) \/ (exists l cl, mk_gaussian_upper_limit norm_ppf l cl = Ok d) \/
    (exists a loc scale, mk_gamma a loc scale = Ok d) \/ (exists a loc scale, mk_gamma_positive a loc scale = Ok d) \/
    (exists sf t b s, mk_gamma_counting sf t b s = Ok d) \/
    (exists l cl t b s, mk_gamma_upper_limit gamma_ppf gamma_cdf l cl t b s = Ok d).

  Lemma trunc_IZR z : trunc (IZR z) = z.
  Proof. unfold trunc. destruct (Rlt_dec (IZR z) 0); [|apply int_part_IZR]. rewrite <- opp_IZR, int_part_IZR. lia. Qed.
  Lemma fix_counts_again t b s t' b' s' : fix_counts t b s = Ok (t', b', s') -> 0 <= t' -> 0 <= b' ->
    fix_counts (Some t') (Some b') (Some s') = Ok (t', b', s').
  Proof.
    intros E Ht Hb. unfold fix_counts. destruct (Rlt_dec t' 0); [lra|]. destruct (Rlt_dec b' 0); [lra|].
    revert E. unfold fix_counts.
    assert (E0 : forall x, 0 / x = 0) by (intro; unfold Rdiv; ring).
    assert (Hz : t' - b' - s' = 0 ->
      (if Rlt_dec 1e-15 (Rabs ((t' - b' - s') / (if Req_EM_T t' 0 then 1 else t'))) then Err ValueError else Ok (t', b', s')) = Ok (t', b', s')).
    { intros ->. rewrite E0, Rabs_R0. destruct (Rlt_dec 1e-15 0); [lra|reflexivity]. }
    destruct t as [t|], b as [b|], s as [s|];
      repeat (match goal with |- context [if Rlt_dec ?a 0 then _ else _] => destruct (Rlt_dec a 0) end; try discriminate);
      try discriminate.
    - destruct (Rlt_dec 1e-15 (Rabs ((t - b - s) / (if Req_EM_T t 0 then 1 else t)))) as [|Hn] eqn:Er; [discriminate|].
      intro E; injection E as -> -> ->. rewrite Er. reflexivity.
    - intro E; injection E as <- <- <-. apply Hz. lra.
    - intro E; injection E as <- <- <-. apply Hz. lra.
    - intro E; injection E as <- <- <-. apply Hz. lra.
  Qed.

  Lemma roundtrip (d : dist) : constructed d ->
    match d with GammaCounting _ t _ _ => 0 <= t | DiscreteUniform lo hi _ => (lo <= hi)%Z | _ => True end ->
    exists kw, get_dict d = Some kw /\ dict2dist (dist_name d) kw = Ok d.
  Proof.
    intros Hc Ht.
    destruct Hc as [(c & h & E)|[(lo & hi & c & E)|[(c & E)|[(c & s & E)|[(c & f & E)|[(c & r & l & E)|[(c & s & E)|[(lim & cl & E)|[(a & loc & sc & E)|[(a & loc & sc & E)|[(sf & t & b & s & E)|(lim & cl & t & b & s & E)]]]]]]]]]]].
    - injection E as <-. eexists. split; [reflexivity|]. reflexivity.
    - assert (exists c', d = DiscreteUniform lo hi c' /\ mk_discrete_uniform (Num := Num) lo hi (Some c') = Ok d) as (c' & -> & E').
      { unfold mk_discrete_uniform in *. destruct c as [c|].
        - destruct (negb (c =? 0)%Z && _) eqn:Eb; [discriminate|]. injection E as <-. exists c. rewrite Eb. auto.
        - injection E as <-. exists (Z.quot (lo + hi) 2). split; [reflexivity|].
          assert (lo <= Z.quot (lo + hi) 2 <= hi)%Z.
          { pose proof (Z.quot_rem' (lo + hi) 2) as Hq. pose proof (Z.rem_bound_abs (lo + hi) 2 ltac:(lia)).
            pose proof (Z.rem_sign_mul (lo + hi) 2 ltac:(lia)). lia. }
          assert (hi <? Z.quot (lo + hi) 2 = false)%Z as -> by (apply Z.ltb_ge; lia).
          assert (Z.quot (lo + hi) 2 <? lo = false)%Z as -> by (apply Z.ltb_ge; lia).
          rewrite andb_false_r. reflexivity. }
      eexists. split; [reflexivity|]. unfold Dist_Model.dict2dist, construct. cbn -[mk_discrete_uniform]. rewrite !trunc_IZR. exact E'.
    - injection E as <-. eexists. split; reflexivity.
    - assert (d = Normal c s) as -> by (unfold mk_normal in E; destruct (Rle_dec s 0); congruence).
      eexists. split; [reflexivity|]. exact E.
    - assert (d = LogNormal c f) as -> by (unfold mk_lognormal in E; destruct (Req_EM_T c 0), (Rle_dec f 1); congruence).
      eexists. split; [reflexivity|]. exact E.
    - assert (d = AsymmetricNormal c r l) as -> by (unfold mk_asymmetric in E; destruct (Rle_dec r 0), (Rle_dec l 0); congruence).
      eexists. split; [reflexivity|]. exact E.
    - assert (d = HalfNormal c s) as -> by (unfold mk_half in E; destruct (Req_EM_T s 0); congruence).
      eexists. split; [reflexivity|]. exact E.
    - assert (exists s, d = GaussianUpperLimit lim cl s) as [s ->].
      { unfold mk_gaussian_upper_limit in E. cbv zeta in E.
        repeat (match type of E with context [if ?x then _ else _] => destruct x end; [discriminate E|]). injection E as <-. eauto. }
      eexists. split; [reflexivity|]. exact E.
    - assert (d = Gamma a loc sc) as -> by (unfold mk_gamma in E; destruct (Rlt_dec 0 loc); congruence).
      eexists. split; [reflexivity|]. exact E.
    - assert (d = GammaPositive a loc sc) as -> by (unfold mk_gamma_positive in E; destruct (Rlt_dec 0 loc); congruence).
      eexists. split; [reflexivity|]. exact E.
    - unfold mk_gamma_counting in E. destruct (Rle_dec sf 0) as [|Hsf] eqn:E1; [discriminate|].
      destruct (fix_counts t b s) as [[[t' b'] s']|] eqn:Ef; [|discriminate]. cbn [bind] in E.
      destruct (Rlt_dec 0 (- b' * sf)) as [|Hb] eqn:E2; [discriminate|]. injection E as <-.
      assert (0 <= b') by nra. eexists. split; [reflexivity|].
      unfold Dist_Model.dict2dist, construct. cbn -[mk_gamma_counting]. unfold mk_gamma_counting. rewrite E1.
      rewrite (fix_counts_again _ _ _ _ _ _ Ef Ht) by assumption. cbn [bind]. rewrite E2. reflexivity.
    - destruct (gamma_ul_inv _ _ _ _ _ _ _ _ E) as (sf & t' & b' & s1 & s' & -> & Hcl & Hl & Hf & -> & -> & -> & Hsf & Esf).
      eexists. split; [reflexivity|].
      unfold Dist_Model.dict2dist, construct. cbn -[mk_gamma_upper_limit].
      revert E. unfold mk_gamma_upper_limit.
      destruct (Rlt_dec 1 cl); [discriminate|]. destruct (Rlt_dec cl 0); [discriminate|]. destruct (Rle_dec lim 0); [discriminate|].
      unfold mk_gamma_counting at 1 3. destruct (Rle_dec 1 0); [lra|]. rewrite Hf.
      assert (Hpos : 0 <= t' /\ 0 <= b').
      { revert Hf. unfold fix_counts. destruct (Rlt_dec t' 0); [discriminate|]. destruct (Rlt_dec b' 0); [discriminate|]. intros _. lra. }
      destruct (fix_counts_two t' b' (t' - b')) as (_ & _ & _ & Hf3); [lra|lra|lra|]. rewrite Hf3. cbn [bind].
      destruct (Rlt_dec 0 (- b' * 1)); [discriminate|]. auto.
  Qed.
End Dist.

Lemma general_background_again t std var bs bv : 0 <= t -> general_background t std var = Ok (bs, bv) ->
  (bv = 0 \/ 1 / 100 <= bv / sqrt (t + 1) -> general_background t (Some bs) (Some bv) = Ok (bs, bv)) /\
  (0 < bv / sqrt (t + 1) < 1 / 100 -> general_background t (Some bs) (Some bv) = Err ValueError).
Proof.
  intros Ht. unfold general_background at 1. destruct (match var with Some v => _ | None => _ end) as [b|]; [|discriminate].
  cbn [bind]. destruct (Rlt_dec b 0) as [|Hb] eqn:E0; [discriminate|]. intro E. injection E as <- <-.
  unfold general_background. assert (Hs : 0 < sqrt (t + 1)) by (apply sqrt_lt_R0; lra).
  split; intro H; destruct (Rlt_dec (b / sqrt (t + 1)) (1 / 100)) as [Hlt|Hge] eqn:E1.
  - destruct H as [->|H]; [|lra]. destruct (Req_EM_T 0 0); [|congruence]. cbn [bind]. destruct (Rlt_dec 0 0); [lra|].
    rewrite E1. reflexivity.
  - destruct (Req_EM_T b b); [|congruence]. cbn [bind]. destruct (Rlt_dec b 0); [lra|]. rewrite E1. reflexivity.
  - destruct (Req_EM_T 0 b) as [<-|]; [|reflexivity]. unfold Rdiv in H. rewrite Rmult_0_l in H. lra.
  - lra.
Qed.
