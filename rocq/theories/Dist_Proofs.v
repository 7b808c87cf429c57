From Coq Require Import Reals Lra Permutation.
From Verif Require Import Base BaseLemmas Dist_Model Dist_Spec.
Local Open Scope R_scope.

Lemma sqrt2pi_pos : 0 < sqrt (2 * PI).
Proof. apply sqrt_lt_R0. pose proof PI_RGT_0. lra. Qed.

Lemma rsum_acc l a : fold_left Rplus l a = a + rsum l.
Proof.
  unfold rsum. revert a; induction l as [|x l IH]; intro a; cbn [fold_left]; [lra|].
  rewrite IH, (IH (0 + x)). lra.
Qed.
Lemma rsum_cons x l : rsum (x :: l) = x + rsum l.
Proof. unfold rsum at 1. cbn [fold_left]. rewrite rsum_acc. lra. Qed.
Lemma rsum_nil : rsum [] = 0.
Proof. reflexivity. Qed.
Lemma rsum_perm l l' : Permutation l l' -> rsum l = rsum l'.
Proof. induction 1; rewrite ?rsum_cons; try lra. Qed.
Lemma rsum_app l l' : rsum (l ++ l') = rsum l + rsum l'.
Proof. induction l as [|x l IH]; cbn [app]; rewrite ?rsum_cons, ?rsum_nil; [lra|rewrite IH; lra]. Qed.
Lemma rsum_pos l : (forall x, In x l -> 0 < x) -> l <> [] -> 0 < rsum l.
Proof.
  induction l as [|x l IH]; [congruence|]. intros Hp _. rewrite rsum_cons.
  assert (0 < x) by (apply Hp; left; reflexivity). destruct l as [|y l]; [rewrite rsum_nil; lra|].
  assert (0 < rsum (y :: l)) by (apply IH; [intros; apply Hp; right; assumption|discriminate]). lra.
Qed.
Lemma rsum_nonneg l : (forall x, In x l -> 0 <= x) -> 0 <= rsum l.
Proof.
  induction l as [|x l IH]; intro Hp; [rewrite rsum_nil; lra|]. rewrite rsum_cons.
  assert (0 <= x) by (apply Hp; left; reflexivity). assert (0 <= rsum l) by (apply IH; intros; apply Hp; right; assumption). lra.
Qed.
Lemma rsum_ge_member l x : (forall y, In y l -> 0 <= y) -> In x l -> x <= rsum l.
Proof.
  induction l as [|y l IH]; intros Hp Hin; [destruct Hin|]. rewrite rsum_cons.
  assert (0 <= y) by (apply Hp; left; reflexivity).
  assert (Hl : 0 <= rsum l) by (apply rsum_nonneg; intros; apply Hp; right; assumption).
  destruct Hin as [E|Hin]; [subst; lra|]. assert (x <= rsum l) by (apply IH; [intros; apply Hp; right; assumption|exact Hin]). lra.
Qed.
Lemma rsum_map_scal {A} (f : A -> R) k l : rsum (map (fun a => k * f a) l) = k * rsum (map f l).
Proof. induction l as [|a l IH]; cbn [map]; rewrite ?rsum_cons, ?rsum_nil; [lra|rewrite IH; lra]. Qed.
Lemma rsum_map_add {A} (f g : A -> R) l : rsum (map (fun a => f a + g a) l) = rsum (map f l) + rsum (map g l).
Proof. induction l as [|a l IH]; cbn [map]; rewrite ?rsum_cons, ?rsum_nil; [lra|rewrite IH; lra]. Qed.
Lemma rsum_map_ext {A} (f g : A -> R) l : (forall a, In a l -> f a = g a) -> rsum (map f l) = rsum (map g l).
Proof. intro H. f_equal. apply map_ext_in. exact H. Qed.

Lemma Forall_perm {A} (P : A -> Prop) l l' : Permutation l l' -> Forall P l -> Forall P l'.
Proof. intros Hp Hf. rewrite Forall_forall in *. intros x Hx. apply Hf. eapply Permutation_in; [apply Permutation_sym, Hp|exact Hx]. Qed.
Lemma filter_perm {A} (f : A -> bool) l l' : Permutation l l' -> Permutation (filter f l) (filter f l').
Proof.
  induction 1; cbn [filter]; auto.
  - destruct (f x); auto.
  - destruct (f x), (f y); auto. apply perm_swap.
  - eapply Permutation_trans; eassumption.
Qed.

Lemma gauss_is_normal x mu s : gauss_logpdf x mu s = normal_logpdf x mu s.
Proof. reflexivity. Qed.

Section Dist.
  Context {Num : Type}.
  Variable num_central : Num -> R.
  Notation central := (central num_central).
  Notation dist := (dist Num).

  Lemma req_true a b : req a b = true <-> a = b.
  Proof. unfold req. destruct (Req_EM_T a b); intuition congruence. Qed.

  Lemma normal_ok_is (d : dist) : normal_ok d -> is_normal d = true.
  Proof. intros (c & s & -> & _). reflexivity. Qed.
  Lemma normals_forallb (l : list dist) : Forall normal_ok l -> forallb is_normal l = true.
  Proof. rewrite Forall_forall, forallb_forall. intros H x Hx. apply normal_ok_is, H, Hx. Qed.

  Lemma normal_ok_var (d : dist) : normal_ok d -> 0 < var d.
  Proof. intros (c & s & -> & Hs). unfold var; cbn. nra. Qed.
  Lemma normals_var_pos (l : list dist) : Forall normal_ok l -> l <> [] -> 0 < rsum (map var l).
  Proof.
    intros Hf Hne. apply rsum_pos.
    - intros x Hx. apply in_map_iff in Hx as (d & <- & Hd). apply normal_ok_var. rewrite Forall_forall in Hf. auto.
    - destruct l; [congruence|discriminate].
  Qed.

  Lemma convolve_gaussians_spec same (l : list dist) : Forall normal_ok l -> l <> [] ->
    (same = true -> exists c, forall d, In d l -> central d = c) ->
    exists c s, convolve_gaussians num_central same l = Ok (Normal c s) /\ 0 < s /\ s ^ 2 = rsum (map var l) /\
      (same = true -> forall d, In d l -> c = central d) /\ (same = false -> c = rsum (map central l)).
  Proof.
    intros Hf Hne Hsame. destruct l as [|d0 [|d1 l]]; [congruence| |].
    - inversion Hf as [|? ? (c & s & -> & Hs) _]; subst. exists c, s. split; [reflexivity|]. split; [exact Hs|].
      cbn [map var width]. rewrite rsum_cons, rsum_nil. unfold var; cbn [width]. split; [lra|]. split.
      + intros _ d [<-|[]]. reflexivity.
      + intros _. rewrite rsum_cons, rsum_nil. cbn. lra.
    - unfold convolve_gaussians. set (l0 := d0 :: d1 :: l) in *. rewrite normals_forallb by exact Hf. cbn [negb].
      assert (Hc : same && negb (forallb (fun p => req (central p) (central d0)) l0) = false).
      { destruct same; [|reflexivity]. destruct (Hsame eq_refl) as [c Hc]. cbn [andb]. apply negb_false_iff.
        apply forallb_forall. intros d Hd. apply req_true. rewrite (Hc d Hd), (Hc d0); [reflexivity|left; reflexivity]. }
      rewrite Hc. pose proof (normals_var_pos l0 Hf Hne) as Hv.
      set (s := sqrt (rsum (map (fun d => deviation d ^ 2) l0))).
      assert (Hs : 0 < s) by (apply sqrt_lt_R0; exact Hv).
      exists (if same then central d0 else rsum (map central l0)), s. split; [|split; [|split; [|split]]].
      + unfold mk_normal. destruct (Rle_dec s 0); [lra|reflexivity].
      + exact Hs.
      + unfold s. rewrite pow2_sqrt; [reflexivity|]. apply Rlt_le. exact Hv.
      + intros -> d Hd. destruct (Hsame eq_refl) as [c Hc']. rewrite (Hc' d Hd), (Hc' d0); [reflexivity|left; reflexivity].
      + intros ->. reflexivity.
  Qed.

  Variable from_pd : dist -> result Num.
  Variable convolve_num : bool -> list Num -> result Num.
  Variable combine_num : list Num -> result Num.
  Notation convolve := (convolve num_central from_pd convolve_num).
  Notation combine := (combine num_central from_pd combine_num).

  Lemma filter_none {A} (f : A -> bool) l : (forall x, In x l -> f x = false) -> filter f l = [].
  Proof.
    induction l as [|x l IH]; intro Hf; [reflexivity|]. cbn. rewrite (Hf x) by (left; reflexivity).
    apply IH. intros; apply Hf; right; assumption.
  Qed.
  Lemma filter_all {A} (f : A -> bool) l : (forall x, In x l -> f x = true) -> filter f l = l.
  Proof.
    induction l as [|x l IH]; intro Hf; [reflexivity|]. cbn. rewrite (Hf x) by (left; reflexivity).
    f_equal. apply IH. intros; apply Hf; right; assumption.
  Qed.

  Lemma don_cases (l : list dist) : Forall delta_or_normal l ->
    filter is_other l = [] /\ Forall normal_ok (filter is_normal l).
  Proof.
    intro Hf. rewrite Forall_forall in Hf. split.
    - apply filter_none. intros x Hx. destruct (Hf x Hx) as [(c & s & -> & _)|(c & ->)]; reflexivity.
    - apply Forall_forall. intros x Hx. apply filter_In in Hx as [Hx Hn].
      destruct (Hf x Hx) as [Ho|(c & ->)]; [exact Ho|discriminate].
  Qed.

  (** convolution around a common centre *)
  Lemma convolve_same_spec l c : Forall delta_or_normal l -> (forall d, In d l -> central d = c) ->
    (exists d, In d l /\ is_normal d = true) ->
    exists s, convolve Same l = Ok (Normal c s) /\ 0 < s /\ s ^ 2 = rsum (map var (filter is_normal l)).
  Proof.
    intros Hf Hc (dn & Hdn & Hn). destruct (don_cases l Hf) as [Ho Hg].
    assert (Hgne : filter is_normal l <> []).
    { intro E. assert (In dn (filter is_normal l)) by (apply filter_In; auto). rewrite E in *. contradiction. }
    destruct (convolve_gaussians_spec true (filter is_normal l) Hg Hgne) as (c' & s & E & Hs & Hv & Hcc & _).
    { intros _. exists c. intros d Hd. apply filter_In in Hd as [Hd _]. auto. }
    assert (c' = c) as -> .
    { rewrite (Hcc eq_refl dn); [apply Hc, Hdn|apply filter_In; auto]. }
    exists s. split; [|auto]. unfold Dist_Model.convolve, convolve_univariate.
    destruct l as [|d0 [|d1 l]]; [destruct Hdn| |].
    - destruct Hdn as [->|[]]. cbn [filter] in E. rewrite Hn in E. cbn [convolve_gaussians] in E. exact E.
    - set (l0 := d0 :: d1 :: l) in *.
      assert (Hall : forallb (fun p => req (central p) (central d0)) l0 = true).
      { apply forallb_forall. intros d Hd. apply req_true. rewrite (Hc d Hd), (Hc d0); [reflexivity|left; reflexivity]. }
      rewrite Hall. cbn [andb negb]. rewrite Ho. destruct (filter is_normal l0) eqn:Eg; [congruence|]. exact E.
  Qed.
  Lemma convolve_deltas l c : l <> [] -> (forall d, In d l -> d = Delta c) -> convolve Same l = Ok (Delta c).
  Proof.
    intros Hne Hd. unfold Dist_Model.convolve, convolve_univariate. destruct l as [|d0 [|d1 l]]; [congruence| |].
    - rewrite (Hd d0) by (left; reflexivity). reflexivity.
    - set (l0 := d0 :: d1 :: l) in *.
      assert (forallb (fun p => req (central p) (central d0)) l0 = true) as ->.
      { apply forallb_forall. intros d Hin. apply req_true. rewrite (Hd d Hin), (Hd d0); [reflexivity|left; reflexivity]. }
      cbn [andb negb].
      rewrite (filter_none is_other) by (intros x Hx; rewrite (Hd x Hx); reflexivity).
      rewrite (filter_none is_normal) by (intros x Hx; rewrite (Hd x Hx); reflexivity).
      rewrite (filter_all is_delta) by (intros x Hx; rewrite (Hd x Hx); reflexivity).
      unfold l0. rewrite (Hd d0) by (left; reflexivity). reflexivity.
  Qed.
  Lemma convolve_sum_spec l : Forall normal_ok l -> l <> [] ->
    exists s, convolve Sum l = Ok (Normal (rsum (map central l)) s) /\ 0 < s /\ s ^ 2 = rsum (map var l).
  Proof.
    intros Hf Hne. destruct (convolve_gaussians_spec false l Hf Hne) as (c & s & E & Hs & Hv & _ & Hc); [discriminate|].
    rewrite (Hc eq_refl) in E. exists s. split; [|auto]. unfold Dist_Model.convolve, convolve_univariate.
    destruct l as [|d0 [|d1 l]]; [congruence|exact E|]. cbn [andb negb]. set (l0 := d0 :: d1 :: l) in *.
    assert (Hn : forall x, In x l0 -> is_normal x = true) by (intros x Hx; apply normal_ok_is; rewrite Forall_forall in Hf; auto).
    rewrite (filter_none is_delta) by (intros x Hx; specialize (Hn x Hx); destruct x; try reflexivity; discriminate).
    cbn [andb]. rewrite (filter_all is_normal) by exact Hn.
    rewrite (filter_none is_other) by (intros x Hx; unfold is_other; rewrite (Hn x Hx); reflexivity).
    unfold l0 at 1. exact E.
  Qed.
  Lemma square_inj a b : 0 < a -> 0 < b -> a ^ 2 = b ^ 2 -> a = b.
  Proof. intros Ha Hb E. nra. Qed.
  Lemma convolve_same_perm l l' : Permutation l l' -> Forall delta_or_normal l ->
    (exists d, In d l /\ is_normal d = true) -> (exists c, forall d, In d l -> central d = c) ->
    convolve Same l = convolve Same l'.
  Proof.
    intros Hp Hf (d & Hd & Hn) (c & Hc).
    destruct (convolve_same_spec l c Hf Hc) as (s & E & Hs & Hv); [eauto|].
    destruct (convolve_same_spec l' c) as (s' & E' & Hs' & Hv').
    - eapply Forall_perm; eassumption.
    - intros x Hx. apply Hc. eapply Permutation_in; [apply Permutation_sym, Hp|exact Hx].
    - exists d. split; [eapply Permutation_in; eassumption|exact Hn].
    - rewrite E, E'. assert (s = s') as ->; [|reflexivity]. apply square_inj; auto. rewrite Hv, Hv'.
      apply rsum_perm. apply Permutation_map. apply filter_perm, Hp.
  Qed.
  Lemma convolve_mismatch l d d' : (2 <= length l)%nat -> In d l -> In d' l -> central d <> central d' ->
    convolve Same l = Err AssertionError.
  Proof.
    intros Hl Hd Hd' Hne. unfold Dist_Model.convolve, convolve_univariate.
    destruct l as [|d0 [|d1 l]]; cbn [length] in Hl; try lia.
    set (l0 := d0 :: d1 :: l) in *.
    destruct (forallb (fun p => req (central p) (central d0)) l0) eqn:E; [|reflexivity].
    exfalso. rewrite forallb_forall in E. apply Hne. transitivity (central d0); [|symmetry]; apply req_true, E; assumption.
  Qed.

  (** combination *)
  Lemma normal_logpdf_expand x mu s : 0 < s ->
    normal_logpdf x mu s = - (1 / s ^ 2) * x ^ 2 / 2 + (1 / s ^ 2) * mu * x - (1 / s ^ 2) * mu ^ 2 / 2 - ln (sqrt (2 * PI) * s).
  Proof. intro Hs. unfold normal_logpdf. field. lra. Qed.

  Lemma wt_pos (d : dist) : normal_ok d -> 0 < wt d.
  Proof. intros (c & s & -> & Hs). unfold wt; cbn [width]. apply Rdiv_lt_0_compat; [lra|nra]. Qed.
  Lemma wts_pos (l : list dist) : Forall normal_ok l -> l <> [] -> 0 < rsum (map wt l).
  Proof.
    intros Hf Hne. apply rsum_pos.
    - intros x Hx. apply in_map_iff in Hx as (d & <- & Hd). apply wt_pos. rewrite Forall_forall in Hf. auto.
    - destruct l; [congruence|discriminate].
  Qed.
  Lemma sum_logpdf (l : list dist) : Forall normal_ok l ->
    exists k, forall x, rsum (map (fun d => gauss_logpdf x (central d) (width d)) l) =
      - rsum (map wt l) * x ^ 2 / 2 + rsum (map (fun d => wt d * central d) l) * x + k.
  Proof.
    induction 1 as [|d l (c & s & -> & Hs) Hf (k & IH)].
    - exists 0. intro x. cbn [map]. rewrite !rsum_nil. lra.
    - exists (k - (1 / s ^ 2) * c ^ 2 / 2 - ln (sqrt (2 * PI) * s)). intro x. cbn [map]. rewrite !rsum_cons, IH.
      rewrite (gauss_is_normal x). change (wt (Normal c s)) with (1 / s ^ 2). cbn [width Dist_Model.central].
      rewrite normal_logpdf_expand by exact Hs. set (w := 1 / s ^ 2). unfold Rdiv. ring.
  Qed.

  Lemma combine_gaussians_spec (l : list dist) : Forall normal_ok l -> l <> [] ->
    exists c u, combine_gaussians num_central l = Ok (Normal c u) /\ 0 < u /\ 1 / u ^ 2 = rsum (map wt l) /\
      c * rsum (map wt l) = rsum (map (fun d => wt d * central d) l).
  Proof.
    intros Hf Hne. pose proof (wts_pos l Hf Hne) as Hw.
    destruct l as [|d0 [|d1 l]]; [congruence| |].
    - inversion Hf as [|? ? (c & s & -> & Hs) _]; subst. exists c, s. cbn [combine_gaussians map]. rewrite !rsum_cons, !rsum_nil.
      unfold wt; cbn [width Dist_Model.central]. repeat split; lra.
    - unfold combine_gaussians. set (l0 := d0 :: d1 :: l) in *. rewrite normals_forallb by exact Hf. cbn [negb].
      unfold weighted_average. change (fun d : Dist_Model.dist Num => 1 / deviation d ^ 2) with (@wt Num).
      change (fun d : Dist_Model.dist Num => 1 / deviation d ^ 2 * central d) with (fun d => wt d * central d).
      set (w := rsum (map wt l0)) in *.
      assert (Hu : 0 < sqrt (1 / w)) by (apply sqrt_lt_R0, Rdiv_lt_0_compat; lra).
      exists (rsum (map (fun d => wt d * central d) l0) / w), (sqrt (1 / w)). split; [|split; [exact Hu|split]].
      + unfold mk_normal. destruct (Rle_dec (sqrt (1 / w)) 0); [lra|reflexivity].
      + rewrite pow2_sqrt; [field; lra|]. apply Rlt_le, Rdiv_lt_0_compat; lra.
      + field. lra.
  Qed.
  Lemma combine_normals l : Forall normal_ok l -> l <> [] -> combine l = combine_gaussians num_central l.
  Proof.
    intros Hf Hne. unfold Dist_Model.combine. destruct l as [|d0 [|d1 l]]; [congruence|reflexivity|].
    set (l0 := d0 :: d1 :: l) in *.
    assert (Hn : forall x, In x l0 -> is_normal x = true) by (intros x Hx; apply normal_ok_is; rewrite Forall_forall in Hf; auto).
    rewrite (filter_none is_delta) by (intros x Hx; specialize (Hn x Hx); destruct x; try reflexivity; discriminate).
    rewrite (filter_all is_normal) by exact Hn.
    rewrite (filter_none is_other) by (intros x Hx; unfold is_other; rewrite (Hn x Hx); reflexivity).
    reflexivity.
  Qed.
  Lemma combine_spec l : Forall normal_ok l -> l <> [] ->
    exists c u, combine l = Ok (Normal c u) /\ 0 < u /\
      (exists k, forall x, gauss_logpdf x c u = rsum (map (fun d => gauss_logpdf x (central d) (width d)) l) + k) /\
      (forall d, In d l -> u <= width d) /\
      1 / u ^ 2 = rsum (map wt l) /\ c * rsum (map wt l) = rsum (map (fun d => wt d * central d) l).
  Proof.
    intros Hf Hne. rewrite combine_normals by assumption.
    destruct (combine_gaussians_spec l Hf Hne) as (c & u & E & Hu & Hw & Hc). exists c, u.
    split; [exact E|]. split; [exact Hu|]. split; [|split; [|split; assumption]].
    - destruct (sum_logpdf l Hf) as (k & Hk).
      exists (- (1 / u ^ 2) * c ^ 2 / 2 - ln (sqrt (2 * PI) * u) - k). intro x. rewrite Hk. rewrite (gauss_is_normal x). rewrite normal_logpdf_expand by exact Hu.
      rewrite <- Hc, <- Hw. set (w := 1 / u ^ 2). unfold Rdiv. ring.
    - intros d Hd. rewrite Forall_forall in Hf. destruct (Hf d Hd) as (cd & s & -> & Hs). cbn [width].
      assert (Hle : 1 / s ^ 2 <= 1 / u ^ 2).
      { rewrite Hw. change (1 / s ^ 2) with (@wt Num (Normal cd s)). apply rsum_ge_member.
        - intros y Hy. apply in_map_iff in Hy as (d' & <- & Hd'). apply Rlt_le, wt_pos, Hf, Hd'.
        - apply in_map, Hd. }
      destruct (Rle_lt_dec u s) as [|Hlt]; [assumption|exfalso].
      assert (s ^ 2 < u ^ 2) by nra. assert (/ u ^ 2 < / s ^ 2) by (apply Rinv_lt_contravar; [apply Rmult_lt_0_compat; apply pow_lt; lra|assumption]). unfold Rdiv in Hle. lra.
  Qed.
  Lemma combine_perm l l' : Permutation l l' -> Forall normal_ok l -> combine l = combine l'.
  Proof.
    intros Hp Hf. destruct l as [|d0 l].
    { apply Permutation_nil in Hp. subst. reflexivity. }
    destruct (combine_spec (d0 :: l)) as (c & u & E & Hu & _ & _ & Hw & Hc); [exact Hf|discriminate|].
    destruct (combine_spec l') as (c' & u' & E' & Hu' & _ & _ & Hw' & Hc').
    - eapply Forall_perm; eassumption.
    - intros ->. apply Permutation_sym, Permutation_nil in Hp. discriminate.
    - rewrite E, E'.
      assert (Hww : rsum (map wt (d0 :: l)) = rsum (map wt l')) by (apply rsum_perm, Permutation_map, Hp).
      assert (Hcc : rsum (map (fun d => wt d * central d) (d0 :: l)) = rsum (map (fun d => wt d * central d) l')) by (apply rsum_perm, Permutation_map, Hp).
      assert (Hpos : 0 < rsum (map wt (d0 :: l))) by (apply wts_pos; [exact Hf|discriminate]).
      assert (c = c') as -> by nra.
      assert (u = u') as ->; [|reflexivity]. apply square_inj; auto.
      assert (Hi : 1 / u ^ 2 = 1 / u' ^ 2) by congruence. unfold Rdiv in Hi. rewrite !Rmult_1_l in Hi.
      rewrite <- (Rinv_inv (u ^ 2)), <- (Rinv_inv (u' ^ 2)), Hi. reflexivity.
  Qed.

  Lemma combine_deltas l c : In (Delta c) l -> (forall c', In (Delta c') l -> c' = c) -> combine l = Ok (Delta c).
  Proof.
    intros Hin Hall. unfold Dist_Model.combine. destruct l as [|d0 [|d1 l]]; [destruct Hin| |].
    - destruct Hin as [->|[]]. reflexivity.
    - set (l0 := d0 :: d1 :: l) in *.
      assert (Hd : In (Delta c) (filter is_delta l0)) by (apply filter_In; auto).
      assert (Hall' : forall d, In d (filter is_delta l0) -> d = Delta c).
      { intros d Hd'. apply filter_In in Hd' as [H1 H2]. destruct d; try discriminate. f_equal. apply Hall, H1. }
      destruct (filter is_delta l0) as [|d ds]; [destruct Hd|].
      rewrite (Hall' d) by (left; reflexivity).
      assert (forallb (fun p => req (central p) (central (Delta c))) ds = true) as ->; [|reflexivity].
      apply forallb_forall. intros d' Hd'. rewrite (Hall' d') by (right; exact Hd'). apply req_true. reflexivity.
  Qed.
  Lemma combine_deltas_conflict l c c' : In (Delta c) l -> In (Delta c') l -> c <> c' -> combine l = Err ValueError.
  Proof.
    intros H1 H2 Hne. unfold Dist_Model.combine. destruct l as [|d0 [|d1 l]]; [destruct H1| |].
    - destruct H1 as [->|[]], H2 as [E|[]]. congruence.
    - set (l0 := d0 :: d1 :: l) in *.
      assert (Hd1 : In (Delta c) (filter is_delta l0)) by (apply filter_In; auto).
      assert (Hd2 : In (Delta c') (filter is_delta l0)) by (apply filter_In; auto).
      destruct (filter is_delta l0) as [|d ds]; [destruct Hd1|].
      destruct (forallb (fun p => req (central p) (central d)) ds) eqn:E; [|reflexivity]. exfalso.
      rewrite forallb_forall in E. assert (Hc : forall x, In x (d :: ds) -> central x = central d).
      { intros x [->|Hx]; [reflexivity|]. apply req_true, E, Hx. }
      pose proof (Hc _ Hd1) as E1. pose proof (Hc _ Hd2) as E2. cbn in E1, E2. congruence.
  Qed.
End Dist.
