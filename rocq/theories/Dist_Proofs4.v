(** * Proofs: mixtures of normal, delta and other distributions *)
From Coq Require Import Reals Lra Lia Permutation.
From Verif Require Import Base BaseLemmas Dist_Model Dist_Spec Dist_Proofs Dist_Proofs2 Dist_Proofs3.
Local Open Scope R_scope.

Lemma normalb_is {Num} (d : dist Num) : normalb d = is_normal d. Proof. destruct d; reflexivity. Qed.
Lemma neither_is {Num} (d : dist Num) : neither d = is_other d. Proof. destruct d; reflexivity. Qed.
Lemma filter_ext_eq {A} (f g : A -> bool) l : (forall x, f x = g x) -> filter f l = filter g l.
Proof. intro H. induction l as [|x l IH]; [reflexivity|]. cbn. rewrite H, IH. reflexivity. Qed.

Lemma normals_ok {Num} (l : list (dist Num)) : Forall (fun d => normalb d = true -> normal_ok d) l -> Forall normal_ok (filter is_normal l).
Proof.
  intro H. rewrite Forall_forall in *. intros d Hd. apply filter_In in Hd as [Hd Hn]. apply H; [exact Hd|]. rewrite normalb_is. exact Hn.
Qed.

Lemma filter_nil {A} (f : A -> bool) l : filter f l = [] -> forall x, In x l -> f x = false.
Proof. intros E x Hx. destruct (f x) eqn:Ef; [|reflexivity]. assert (In x (filter f l)) by (apply filter_In; auto). rewrite E in *. contradiction. Qed.

Lemma nums_single {Num} (f : list Num -> result Num) (r : result (list Num)) :
  bind r (fun nums => bind (match nums with [n] => Ok n | _ => f nums end) (fun n => Ok (@Numerical Num n))) =
  bind r (fun tables => match tables with [t] => Ok (Numerical t) | _ => bind (f tables) (fun n => Ok (Numerical n)) end).
Proof. destruct r as [[|a [|b l]]|]; reflexivity. Qed.

Lemma convolve_mixed {Num} (num_central : Num -> R) from_pd convolve_num (l : list (dist Num)) c :
  (forall d, In d l -> central num_central d = c) -> (2 <= length l)%nat ->
  Forall (fun d => normalb d = true -> normal_ok d) l -> (exists d, In d l /\ neither d = true) ->
  exists g, ((forall d, In d l -> normalb d = false) /\ g = [] \/
             exists s, g = [Normal c s] /\ 0 < s /\ s ^ 2 = rsum (map var (filter normalb l))) /\
    convolve num_central from_pd convolve_num Same l =
      bind (mapM from_pd (filter neither l ++ g)) (fun tables =>
      match tables with [t] => Ok (Numerical t) | _ => bind (convolve_num true tables) (fun n => Ok (Numerical n)) end).
Proof.
  intros Hc Hl Hn (d & Hd & Hnd). rewrite (filter_ext_eq _ _ l normalb_is), (filter_ext_eq _ _ l neither_is).
  pose proof (normals_ok _ Hn) as Hg. rewrite neither_is in Hnd.
  assert (Ho : In d (filter is_other l)) by (apply filter_In; auto).
  unfold convolve, convolve_univariate. destruct l as [|d0 [|d1 l]]; [cbn in Hl; lia|cbn in Hl; lia|].
  set (l0 := d0 :: d1 :: l) in *.
  assert (Hreq : forallb (fun p => req (central num_central p) (central num_central d0)) l0 = true).
  { apply forallb_forall. intros x Hx. apply req_true. rewrite (Hc x Hx), (Hc d0); [reflexivity|left; reflexivity]. }
  rewrite Hreq. cbn [andb negb]. unfold convolve_numericals.
  destruct (filter is_other l0) as [|o os] eqn:Eo; [destruct Ho|].
  destruct (filter is_normal l0) as [|g gs] eqn:Eg.
  - exists []. split; [left; split; [|reflexivity]|].
    + intros x Hx. rewrite normalb_is. exact (filter_nil _ _ Eg x Hx).
    + cbn [bind]. apply (nums_single (convolve_num true)).
  - destruct (convolve_gaussians_spec num_central true (g :: gs)) as (c' & s & E & Hs & Hv & Hcc & _).
    + exact Hg. + discriminate.
    + intros _. exists c. intros x Hx. rewrite <- Eg in Hx. apply filter_In in Hx as [Hx _]. auto.
    + assert (c' = c) as ->.
      { rewrite (Hcc eq_refl g) by (left; reflexivity). apply Hc. assert (Hin : In g (filter is_normal l0)) by (rewrite Eg; left; reflexivity).
        apply filter_In in Hin as [Hin _]. exact Hin. }
      exists [Normal c s]. split.
      * right. exists s. split; [reflexivity|]. split; assumption.
      * rewrite E. cbn [bind]. apply (nums_single (convolve_num true)).
Qed.

Lemma combine_mixed {Num} (num_central : Num -> R) from_pd combine_num (l : list (dist Num)) :
  (forall c, ~ In (Delta c) l) -> (2 <= length l)%nat ->
  Forall (fun d => normalb d = true -> normal_ok d) l -> (exists d, In d l /\ neither d = true) ->
  exists g, ((forall d, In d l -> normalb d = false) /\ g = [] \/
             exists c u, g = [Normal c u] /\ 0 < u /\ 1 / u ^ 2 = rsum (map wt (filter normalb l)) /\
               c * (1 / u ^ 2) = rsum (map (fun d => wt d * central num_central d) (filter normalb l))) /\
    combine num_central from_pd combine_num l =
      bind (mapM from_pd (filter neither l ++ g)) (fun tables =>
      match tables with [t] => Ok (Numerical t) | _ => bind (combine_num tables) (fun n => Ok (Numerical n)) end).
Proof.
  intros Hc Hl Hn (d & Hd & Hnd). rewrite (filter_ext_eq _ _ l normalb_is), (filter_ext_eq _ _ l neither_is).
  pose proof (normals_ok _ Hn) as Hg. rewrite neither_is in Hnd.
  assert (Ho : In d (filter is_other l)) by (apply filter_In; auto).
  unfold combine. destruct l as [|d0 [|d1 l]]; [cbn in Hl; lia|cbn in Hl; lia|].
  set (l0 := d0 :: d1 :: l) in *.
  rewrite (filter_none is_delta).
  2:{ intros x Hx. destruct x; try reflexivity. exfalso. eapply Hc. exact Hx. }
  cbv zeta. unfold combine_numericals.
  destruct (filter is_other l0) as [|o os] eqn:Eo; [destruct Ho|].
  destruct (filter is_normal l0) as [|g gs] eqn:Eg.
  - exists []. split; [left; split; [|reflexivity]|].
    + intros x Hx. rewrite normalb_is. exact (filter_nil _ _ Eg x Hx).
    + cbn [bind]. apply (nums_single combine_num).
  - destruct (combine_gaussians_spec num_central (g :: gs) Hg ltac:(discriminate)) as (c & u & E & Hu & Hw & Hcc).
    exists [Normal c u]. split.
    + right. exists c, u. split; [reflexivity|]. split; [exact Hu|]. split; [exact Hw|]. rewrite Hw. exact Hcc.
    + rewrite E. cbn [bind]. apply (nums_single combine_num).
Qed.

Lemma dget_none kw k : ~ In k (map fst kw) -> dget kw k = None.
Proof.
  induction kw as [|[k' v] kw IH]; [reflexivity|]. cbn. intro H. destruct (String.eqb k' k) eqn:E.
  - apply String.eqb_eq in E. exfalso. apply H. left. exact E.
  - apply IH. intro; apply H; right; assumption.
Qed.
Section Args.
  Context {Num : Type}.
  Variables (norm_ppf : R -> R) (gamma_ppf gamma_cdf : R -> R -> R -> R -> R).
  Lemma construct_unknown cls sig kw k v : signature cls = Some sig -> In (k, v) kw -> ~ In k (map fst sig) ->
    construct (Num := Num) norm_ppf gamma_ppf gamma_cdf cls kw = Err TypeError.
  Proof.
    intros Es Hin Hn. unfold construct. rewrite Es.
    destruct (forallb (fun kv => existsb (fun s => String.eqb (fst s) (fst kv)) sig) kw) eqn:E; [|reflexivity].
    exfalso. rewrite forallb_forall in E. specialize (E _ Hin). apply existsb_exists in E as ([k' b] & Hk & Ek). cbn in Ek.
    apply String.eqb_eq in Ek. subst k'. apply Hn. apply in_map_iff. exists (k, b). auto.
  Qed.
  Lemma construct_missing cls sig kw k : signature cls = Some sig -> In (k, true) sig -> ~ In k (map fst kw) ->
    construct (Num := Num) norm_ppf gamma_ppf gamma_cdf cls kw = Err TypeError.
  Proof.
    intros Es Hin Hn. unfold construct. rewrite Es. destruct (negb (forallb _ kw)); [reflexivity|].
    destruct (forallb (fun s => negb (snd s) || match dget kw (fst s) with Some _ => true | None => false end) sig) eqn:E; [|reflexivity].
    exfalso. rewrite forallb_forall in E. specialize (E _ Hin). cbn [fst snd negb orb] in E. rewrite dget_none in E by exact Hn. discriminate.
  Qed.
  Lemma convert_keys kw : map fst (map (fun kv : string * dval => (fst kv, convertv (snd kv))) kw) = map fst kw.
  Proof. rewrite map_map. reflexivity. Qed.
  Lemma wrong_arguments (d : dist Num) kw kw' :
    get_dict d = Some kw ->
    (forall k v, In (k, v) kw' -> ~ In k (map fst kw) -> dict2dist (Num := Num) norm_ppf gamma_ppf gamma_cdf (dist_name d) kw' = Err TypeError) /\
    (forall k, In k (map fst kw) -> ~ In k (map fst kw') ->
       ~ In k ["scale_factor"; "counts_total"; "counts_background"; "counts_signal"]%string ->
       ~ (k = "central_value"%string /\ dist_name d = "discrete_uniform"%string) ->
       dict2dist (Num := Num) norm_ppf gamma_ppf gamma_cdf (dist_name d) kw' = Err TypeError).
  Proof.
    intro E. assert (Hs : exists sig, signature (dist_name d) = Some sig /\ map fst sig = map fst kw /\
      forall k, In (k, false) sig -> In k ["scale_factor"; "counts_total"; "counts_background"; "counts_signal"]%string \/
        (k = "central_value"%string /\ dist_name d = "discrete_uniform"%string)).
    { destruct d; cbn in E; try discriminate; injection E as <-; eexists; (split; [reflexivity|]); (split; [reflexivity|]);
        cbn; intros k Hk; repeat (destruct Hk as [Hk|Hk]; [try discriminate; injection Hk as <-; tauto|]); tauto. }
    destruct Hs as (sig & Es & Ek & Hf). unfold dict2dist. split.
    - intros k v Hin Hn. eapply (construct_unknown _ sig); [exact Es| |rewrite Ek; exact Hn].
      apply in_map_iff. exists (k, v). split; [reflexivity|exact Hin].
    - intros k Hin Hn Ho Hd. rewrite <- Ek in Hin. apply in_map_iff in Hin as ([k' b] & Ekk & Hin). cbn in Ekk. subst k'.
      destruct b; [|exfalso; destruct (Hf k Hin); tauto].
      eapply (construct_missing _ sig); [exact Es|exact Hin|]. rewrite convert_keys. exact Hn.
  Qed.
End Args.
