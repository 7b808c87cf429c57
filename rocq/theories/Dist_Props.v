(** * Properties of the univariate distributions, their convolution and combination *)
From Coq Require Import Reals Lra Lia Permutation.
From Verif Require Import Base BaseLemmas Dist_Model Dist_Spec Dist_Proofs Dist_Proofs2 Dist_Proofs3 Dist_Proofs4.
Local Open Scope R_scope.

(** ** C37: convolution of Gaussians *)
(** Around a common centre, normal and delta distributions (at least one normal) convolve to the normal
    distribution with this centre and the summed variance; order does not matter. *)
Theorem C37_same_centre {Num} (num_central : Num -> R) from_pd convolve_num (l : list (dist Num)) c :
  Forall delta_or_normal l -> (forall d, In d l -> central num_central d = c) -> (exists d, In d l /\ normal_ok d) ->
  exists s, convolve num_central from_pd convolve_num Same l = Ok (Normal c s) /\ 0 < s /\ s ^ 2 = rsum (map var l) /\
    forall l', Permutation l l' -> convolve num_central from_pd convolve_num Same l' = Ok (Normal c s).
Proof.
  intros Hf Hc (d & Hd & Hn). assert (Hex : exists d, In d l /\ is_normal d = true) by (exists d; split; [exact Hd|apply normal_ok_is, Hn]).
  destruct (convolve_same_spec num_central from_pd convolve_num l c Hf Hc Hex) as (s & E & Hs & Hv).
  exists s. split; [exact E|]. split; [exact Hs|]. split.
  - rewrite Hv. clear -Hf. induction Hf as [|d l Hd Hf IH]; [reflexivity|]. cbn [filter map].
    destruct Hd as [(c & s & -> & Hs)|(c & ->)]; cbn [is_normal map]; rewrite ?rsum_cons, IH; [reflexivity|]. unfold var; cbn [width]. ring.
  - intros l' Hp. rewrite <- E. symmetry. apply convolve_same_perm; eauto.
Qed.
Print Assumptions C37_same_centre.
(** Sum of random variables *)
Theorem C37_sum {Num} (num_central : Num -> R) from_pd convolve_num (l : list (dist Num)) :
  Forall normal_ok l -> l <> [] ->
  exists s, convolve num_central from_pd convolve_num Sum l = Ok (Normal (rsum (map (central num_central) l)) s) /\
    0 < s /\ s ^ 2 = rsum (map var l).
Proof. apply convolve_sum_spec. Qed.
Print Assumptions C37_sum.
(** Delta distributions are neutral for whatever classes are convolved *)
Theorem C37_delta_neutral {Num} (num_central : Num -> R) from_pd convolve_num (l : list (dist Num)) c :
  (forall d, In d l -> central num_central d = c) ->
  (2 <= length (filter (fun d => negb (is_delta d)) l))%nat ->
  convolve num_central from_pd convolve_num Same l =
  convolve num_central from_pd convolve_num Same (filter (fun d => negb (is_delta d)) l).
Proof. apply convolve_delta_neutral. Qed.
Print Assumptions C37_delta_neutral.
Theorem C37_single_and_errors {Num} (num_central : Num -> R) from_pd convolve_num :
  (forall d, convolve num_central from_pd convolve_num Same [d] = Ok d) /\
  (forall d, convolve num_central from_pd convolve_num Sum [d] = Ok d) /\
  (forall l c, l <> [] -> (forall d, In d l -> d = Delta c) -> convolve num_central from_pd convolve_num Same l = Ok (Delta c)) /\
  (forall l d d', In d l -> In d' l -> central num_central d <> central num_central d' ->
    convolve num_central from_pd convolve_num Same l = Err AssertionError) /\
  (forall l, convolve num_central from_pd convolve_num OtherMode l = Err ValueError).
Proof.
  repeat split.
  - intros l c. apply convolve_deltas.
  - intros l d d' Hd Hd' Hne. eapply convolve_mismatch; [|exact Hd|exact Hd'|exact Hne].
    destruct l as [|a [|b l]]; [destruct Hd| |cbn; lia]. destruct Hd as [->|[]], Hd' as [E|[]]. congruence.
Qed.
Print Assumptions C37_single_and_errors.
(** Delta distributions cannot be summed with others *)
Theorem C37_sum_with_delta {Num} (num_central : Num -> R) from_pd convolve_num (l : list (dist Num)) c :
  In (Delta c) l -> (2 <= length l)%nat ->
  convolve num_central from_pd convolve_num Sum l = Err NotImplementedError.
Proof.
  intros Hin Hl. unfold convolve, convolve_univariate. destruct l as [|d0 [|d1 l]]; [destruct Hin|cbn in Hl; lia|].
  cbn [andb negb]. assert (Hd : In (Delta c) (filter is_delta (d0 :: d1 :: l))) by (apply filter_In; auto).
  destruct (filter is_delta (d0 :: d1 :: l)); [destruct Hd|reflexivity].
Qed.
Print Assumptions C37_sum_with_delta.
(** As soon as a distribution is neither normal nor delta, these and one normal distribution that stands for all
    the normal ones are tabulated and convolved numerically (a single one is only tabulated). *)
Theorem C37_mixed {Num} (num_central : Num -> R) from_pd convolve_num (l : list (dist Num)) c :
  (forall d, In d l -> central num_central d = c) -> (2 <= length l)%nat ->
  Forall (fun d => normalb d = true -> normal_ok d) l -> (exists d, In d l /\ neither d = true) ->
  exists g, ((forall d, In d l -> normalb d = false) /\ g = [] \/
             exists s, g = [Normal c s] /\ 0 < s /\ s ^ 2 = rsum (map var (filter normalb l))) /\
    convolve num_central from_pd convolve_num Same l =
      bind (mapM from_pd (filter neither l ++ g)) (fun tables =>
      match tables with [t] => Ok (Numerical t) | _ => bind (convolve_num true tables) (fun n => Ok (Numerical n)) end).
Proof. apply convolve_mixed. Qed.
Print Assumptions C37_mixed.
Example C37_mixed_instance : let l : list (dist Empty_set) := [Normal 1 3; Uniform 1 2; Normal 1 4; Delta 1] in
  (forall d, In d l -> central (Empty_set_rect _) d = 1) /\ Forall (fun d => normalb d = true -> normal_ok d) l /\ (exists d, In d l /\ neither d = true).
Proof.
  cbv zeta. split; [|split].
  - intros d [<-|[<-|[<-|[<-|[]]]]]; reflexivity.
  - apply Forall_forall. intros d [<-|[<-|[<-|[<-|[]]]]]; cbn; intro H; try discriminate; [exists 1, 3|exists 1, 4]; (split; [reflexivity|lra]).
  - exists (Uniform 1 2). split; [right; left|]; reflexivity.
Qed.
Example C37_instance :
  let l : list (dist Empty_set) := [Normal 1 3; Delta 1; Normal 1 4] in
  Forall delta_or_normal l /\ (forall d, In d l -> central (Empty_set_rect _) d = 1) /\
  convolve (Empty_set_rect _) (fun _ => Err TypeError) (fun _ _ => Err TypeError) Same l = Ok (Normal 1 5).
Proof.
  cbv zeta.
  assert (Hf : Forall (@delta_or_normal Empty_set) [Normal 1 3; Delta 1; Normal 1 4]).
  { apply Forall_cons; [left; exists 1, 3; split; [reflexivity|lra]|]. apply Forall_cons; [right; exists 1; reflexivity|].
    apply Forall_cons; [left; exists 1, 4; split; [reflexivity|lra]|constructor]. }
  assert (Hc : forall d : dist Empty_set, In d [Normal 1 3; Delta 1; Normal 1 4] -> central (Empty_set_rect _) d = 1).
  { intros d [<-|[<-|[<-|[]]]]; reflexivity. }
  split; [exact Hf|]. split; [exact Hc|].
  destruct (C37_same_centre (Empty_set_rect _) (fun _ => Err TypeError) (fun _ _ => Err TypeError) _ 1 Hf Hc) as (s & E & Hs & Hv & _).
  { exists (Normal 1 3). split; [left; reflexivity|]. exists 1, 3. split; [reflexivity|lra]. }
  rewrite E. do 2 f_equal. cbn [map] in Hv. rewrite !rsum_cons, rsum_nil in Hv. unfold var in Hv; cbn [width] in Hv. nra.
Qed.

(** ** C38: combining Gaussians multiplies their densities *)
Theorem C38_product_of_densities {Num} (num_central : Num -> R) from_pd combine_num (l : list (dist Num)) :
  Forall normal_ok l -> l <> [] ->
  exists c u, combine num_central from_pd combine_num l = Ok (Normal c u) /\ 0 < u /\
    (exists k, forall x, gauss_logpdf x c u = rsum (map (fun d => gauss_logpdf x (central num_central d) (width d)) l) + k) /\
    (forall d, In d l -> u <= width d) /\
    (forall l', Permutation l l' -> combine num_central from_pd combine_num l' = Ok (Normal c u)).
Proof.
  intros Hf Hne. destruct (combine_spec num_central from_pd combine_num l Hf Hne) as (c & u & E & Hu & Hk & Hle & _).
  exists c, u. repeat split; auto. intros l' Hp. rewrite <- E. symmetry. apply combine_perm; assumption.
Qed.
Print Assumptions C38_product_of_densities.
(** The weighted average *)
Theorem C38_weighted_average {Num} (num_central : Num -> R) from_pd combine_num (l : list (dist Num)) :
  Forall normal_ok l -> l <> [] ->
  exists c u, combine num_central from_pd combine_num l = Ok (Normal c u) /\
    1 / u ^ 2 = rsum (map (fun d => 1 / width d ^ 2) l) /\
    c * (1 / u ^ 2) = rsum (map (fun d => 1 / width d ^ 2 * central num_central d) l).
Proof.
  intros Hf Hne. destruct (combine_spec num_central from_pd combine_num l Hf Hne) as (c & u & E & Hu & _ & _ & Hw & Hc).
  exists c, u. split; [exact E|]. split; [exact Hw|]. rewrite Hw. exact Hc.
Qed.
Print Assumptions C38_weighted_average.
(** Otherwise the tables are multiplied, with one normal distribution for all the normal ones *)
Theorem C38_mixed {Num} (num_central : Num -> R) from_pd combine_num (l : list (dist Num)) :
  (forall c, ~ In (Delta c) l) -> (2 <= length l)%nat ->
  Forall (fun d => normalb d = true -> normal_ok d) l -> (exists d, In d l /\ neither d = true) ->
  exists g, ((forall d, In d l -> normalb d = false) /\ g = [] \/
             exists c u, g = [Normal c u] /\ 0 < u /\ 1 / u ^ 2 = rsum (map wt (filter normalb l)) /\
               c * (1 / u ^ 2) = rsum (map (fun d => wt d * central num_central d) (filter normalb l))) /\
    combine num_central from_pd combine_num l =
      bind (mapM from_pd (filter neither l ++ g)) (fun tables =>
      match tables with [t] => Ok (Numerical t) | _ => bind (combine_num tables) (fun n => Ok (Numerical n)) end).
Proof. apply combine_mixed. Qed.
Print Assumptions C38_mixed.
Example C38_mixed_instance : let l : list (dist Empty_set) := [Normal 1 3; Uniform 1 2; Normal 1 4] in
  (forall c, ~ In (Delta c) l) /\ Forall (fun d => normalb d = true -> normal_ok d) l /\ (exists d, In d l /\ neither d = true).
Proof.
  cbv zeta. split; [|split].
  - intros c [H|[H|[H|[]]]]; discriminate.
  - apply Forall_forall. intros d [<-|[<-|[<-|[]]]]; cbn; intro H; try discriminate; [exists 1, 3|exists 1, 4]; (split; [reflexivity|lra]).
  - exists (Uniform 1 2). split; [right; left|]; reflexivity.
Qed.
Example C38_instance :
  combine (Empty_set_rect _) (fun _ => Err TypeError) (fun _ => Err TypeError) [Normal 0 1; Normal 2 1] =
    Ok (@Normal Empty_set 1 (sqrt (1 / 2))).
Proof.
  assert (Hf : Forall (@normal_ok Empty_set) [Normal 0 1; Normal 2 1]).
  { apply Forall_cons; [exists 0, 1; split; [reflexivity|lra]|]. apply Forall_cons; [exists 2, 1; split; [reflexivity|lra]|constructor]. }
  destruct (C38_weighted_average (Empty_set_rect _) (fun _ => Err TypeError) (fun _ => Err TypeError) _ Hf ltac:(discriminate)) as (c & u & E & Hw & Hc).
  destruct (C38_product_of_densities (Empty_set_rect _) (fun _ => Err TypeError) (fun _ => Err TypeError) _ Hf ltac:(discriminate)) as (c' & u' & E' & Hu & _).
  rewrite E in E'. injection E' as <- <-. rewrite E. cbn [map width central] in Hw, Hc. rewrite !rsum_cons, rsum_nil in Hw, Hc.
  assert (Hu2 : 1 / u ^ 2 = 2) by (rewrite Hw; field).
  assert (E1 : c = 1) by (rewrite Hu2 in Hc; lra). subst c. f_equal. f_equal.
  assert (u ^ 2 = 1 / 2). { assert (u ^ 2 * (1 / u ^ 2) = 1) by (field; nra). rewrite Hu2 in *. lra. }
  rewrite <- H. symmetry. apply sqrt_pow2. lra.
Qed.

(** ** C39: combination with exactly known values *)
Theorem C39_delta_wins {Num} (num_central : Num -> R) from_pd combine_num (l : list (dist Num)) c :
  In (Delta c) l ->
  ((forall c', In (Delta c') l -> c' = c) -> combine num_central from_pd combine_num l = Ok (Delta c)) /\
  ((exists c', In (Delta c') l /\ c' <> c) -> combine num_central from_pd combine_num l = Err ValueError).
Proof.
  intro Hin. split.
  - intro Hall. apply combine_deltas; assumption.
  - intros (c' & Hin' & Hne). eapply combine_deltas_conflict; [exact Hin|exact Hin'|congruence].
Qed.
Print Assumptions C39_delta_wins.
Example C39_instance : combine (Empty_set_rect _) (fun _ => Err TypeError) (fun _ => Err TypeError)
  [Normal 0 1; Delta 2; Uniform 1 7] = Ok (@Delta Empty_set 2).
Proof.
  apply C39_delta_wins; [right; left; reflexivity|]. intros c' H. repeat (destruct H as [H|H]; [try discriminate; try (injection H as <-; reflexivity)|]). destruct H.
Qed.

(** ** C40: constructors reject invalid widths, and the central value lies in the support *)
Theorem C40_constructors {Num} (norm_ppf norm_cdf : R -> R) :
  normal_quantiles norm_ppf norm_cdf ->
  (forall c s, if Rlt_dec 0 s then mk_normal c s = Ok (@Normal Num c s) else mk_normal (Num := Num) c s = Err ValueError) /\
  (forall c r l, if Rlt_dec 0 (Rmin r l) then mk_asymmetric c r l = Ok (@AsymmetricNormal Num c r l)
                 else mk_asymmetric (Num := Num) c r l = Err ValueError) /\
  (forall c s, if Req_EM_T s 0 then mk_half (Num := Num) c s = Err ValueError else mk_half c s = Ok (@HalfNormal Num c s)) /\
  (forall c f, (c <> 0 /\ 1 < f -> mk_lognormal c f = Ok (@LogNormal Num c f)) /\
               (c = 0 \/ f <= 1 -> mk_lognormal (Num := Num) c f = Err ValueError)) /\
  (forall limit cl, (0 < limit /\ 0 < cl < 1 ->
                       exists s, mk_gaussian_upper_limit norm_ppf limit cl = Ok (@GaussianUpperLimit Num limit cl s) /\ 0 < s) /\
                    (limit <= 0 \/ cl < 0 \/ 1 < cl -> mk_gaussian_upper_limit (Num := Num) norm_ppf limit cl = Err ValueError)).
Proof.
  intro HQ. split; [|split; [|split; [|split]]].
  - intros c s. unfold mk_normal. dec; try lra; reflexivity.
  - intros c r l. unfold mk_asymmetric, Rmin. destruct (Rle_dec r l); dec; try lra; reflexivity.
  - intros c s. unfold mk_half. dec; reflexivity.
  - intros c f. split; intro H; [apply mk_lognormal_spec; tauto|apply mk_lognormal_spec; exact H].
  - intros limit cl. split.
    + intros [Hl Hcl]. destruct (mk_gul_spec (Num := Num) norm_ppf norm_cdf limit cl HQ Hcl) as [H _]. destruct (H Hl) as (s & E & Hs & _). eauto.
    + intro H. unfold mk_gaussian_upper_limit. dec; try reflexivity; lra.
Qed.
Print Assumptions C40_constructors.
Theorem C40_central_value_in_support {Num} (num_central : Num -> R) gamma_ppf gamma_cdf (d : dist Num) :
  documented d -> (forall c f, d = LogNormal c f -> 0 < c) ->
  exists i, support num_central gamma_ppf gamma_cdf d = Some i /\ in_interval (central num_central d) i.
Proof. intros Hd Hl. apply support_spec; [exact Hd|]. destruct d; auto. eapply Hl. reflexivity. Qed.
Print Assumptions C40_central_value_in_support.
(** every distribution returned by the checking constructors is a documented one *)
Theorem C40_accepted_are_documented {Num} (norm_ppf norm_cdf : R -> R) (d : dist Num) :
  normal_quantiles norm_ppf norm_cdf ->
  (exists c s, mk_normal c s = Ok d) \/ (exists c r l, mk_asymmetric c r l = Ok d) \/ (exists c s, mk_half c s = Ok d) \/
  (exists c f, mk_lognormal c f = Ok d) \/ (exists limit cl, 0 < cl < 1 /\ mk_gaussian_upper_limit norm_ppf limit cl = Ok d) \/
  (exists lo hi c, c <> Some 0%Z /\ (lo <= hi)%Z /\ mk_discrete_uniform lo hi c = Ok d) \/ (exists c, mk_delta c = Ok d) ->
  documented d.
Proof.
  intros HQ [(c & s & E)|[(c & r & l & E)|[(c & s & E)|[(c & f & E)|[(lim & cl & Hcl & E)|[(lo & hi & c & Hc & Hlh & E)|(c & E)]]]]]].
  - unfold mk_normal in E. destruct (Rle_dec s 0); [discriminate|]. injection E as <-. cbn. lra.
  - unfold mk_asymmetric in E. destruct (Rle_dec r 0); [discriminate|]. destruct (Rle_dec l 0); [discriminate|]. injection E as <-. cbn. lra.
  - unfold mk_half in E. destruct (Req_EM_T s 0); [discriminate|]. injection E as <-. exact n.
  - unfold mk_lognormal in E. destruct (Req_EM_T c 0); [discriminate|]. destruct (Rle_dec f 1); [discriminate|]. injection E as <-. cbn. lra.
  - destruct (mk_gul_spec (Num := Num) norm_ppf norm_cdf lim cl HQ Hcl) as [Hok Herr].
    destruct (Rle_lt_dec lim 0) as [Hl|Hl]; [rewrite (Herr Hl) in E; discriminate|].
    destruct (Hok Hl) as (s & E' & Hs & _). rewrite E' in E. injection E as <-. cbn. lra.
  - unfold mk_discrete_uniform in E. destruct c as [c|].
    + destruct (c =? 0)%Z eqn:Ez; [apply Z.eqb_eq in Ez; congruence|]. cbn [negb andb] in E.
      destruct ((hi <? c)%Z || (c <? lo)%Z) eqn:Eb; [discriminate|]. injection E as <-. cbn [documented].
      apply orb_false_iff in Eb as [A B]. apply Z.ltb_ge in A. apply Z.ltb_ge in B. lia.
    + injection E as <-. cbn [documented].
      pose proof (Z.quot_rem' (lo + hi) 2) as Hq. pose proof (Z.rem_bound_abs (lo + hi) 2 ltac:(lia)).
      pose proof (Z.rem_sign_mul (lo + hi) 2 ltac:(lia)). lia.
  - injection E as <-. exact I.
Qed.
Print Assumptions C40_accepted_are_documented.
Lemma quantiles_exist : normal_quantiles (fun q => q - 1 / 2) (fun x => x + 1 / 2).
Proof. split; intros; lra. Qed.
Example C40_instance : mk_asymmetric 1 2 (-3) = @Err (dist Empty_set) ValueError /\ mk_normal 1 2 = Ok (@Normal Empty_set 1 2).
Proof.
  destruct (C40_constructors (Num := Empty_set) _ _ quantiles_exist) as (Hn & Ha & _). split.
  - specialize (Ha 1 2 (-3)). revert Ha. unfold Rmin. destruct (Rle_dec 2 (-3)); dec; intro; try lra; assumption.
  - specialize (Hn 1 2). revert Hn. dec; intro; try lra; assumption.
Qed.

(** ** C80 (fails): a log-normal distribution with negative central value, which the documentation
    allows, has an inverted support that does not contain it *)
Theorem C80_negative_lognormal_support_refuted {Num} (num_central : Num -> R) gamma_ppf gamma_cdf c f :
  c < 0 -> 1 < f ->
  exists d lo hi, mk_lognormal (Num := Num) c f = Ok d /\ support num_central gamma_ppf gamma_cdf d = Some (lo, hi) /\
    hi < lo /\ ~ (lo <= central num_central d <= hi).
Proof.
  intros Hc Hf. exists (LogNormal c f).
  destruct (lognormal_negative_support num_central gamma_ppf gamma_cdf c f Hc Hf) as ([lo hi] & E & Hlt & Hn).
  exists lo, hi. split; [apply mk_lognormal_spec; lra|]. split; [exact E|]. split; [exact Hlt|exact Hn].
Qed.
Print Assumptions C80_negative_lognormal_support_refuted.
(** ** C82 (fails): ranges are not validated *)
Theorem C82_unchecked_ranges_refuted {Num} (num_central : Num -> R) gamma_cdf gamma_logpdf num_logpdf :
  (forall c h, h < 0 -> exists d, mk_uniform (Num := Num) c h = Ok d /\
     forall x, logpdf num_central gamma_cdf gamma_logpdf num_logpdf d x = None) /\
  (exists d, mk_discrete_uniform (Num := Num) 1 5 (Some 0%Z) = Ok d /\ central num_central d = 0 /\
     logpdf num_central gamma_cdf gamma_logpdf num_logpdf d (central num_central d) = None /\
     delta_logpdf num_central gamma_cdf gamma_logpdf num_logpdf d (central num_central d) = NaN) /\
  (exists d, mk_discrete_uniform (Num := Num) 5 1 None = Ok d /\
     forall x, logpdf num_central gamma_cdf gamma_logpdf num_logpdf d x = None).
Proof.
  split; [|split].
  - intros c h Hh. exists (Uniform c h). split; [reflexivity|]. intro x. cbn [logpdf]. dec; try reflexivity; lra.
  - exists (DiscreteUniform 1 5 0). split; [reflexivity|]. split; [reflexivity|].
    assert (E : logpdf num_central gamma_cdf gamma_logpdf num_logpdf (DiscreteUniform 1 5 0) (IZR 0) = None).
    { cbn [logpdf]. rewrite int_part_IZR. destruct (Req_EM_T (IZR 0) (IZR 0)); reflexivity. }
    split; [exact E|]. unfold delta_logpdf. cbn [central]. rewrite E. reflexivity.
  - exists (DiscreteUniform 5 1 3). split; [reflexivity|]. intro x. cbn [logpdf].
    destruct (Req_EM_T (IZR (Int_part x)) x); [|reflexivity].
    destruct ((5 <=? Int_part x)%Z && (Int_part x <=? 1)%Z) eqn:E; [|reflexivity]. exfalso. lia.
Qed.
Print Assumptions C82_unchecked_ranges_refuted.

(** ** C41: relative log-density *)
Theorem C41_relative_logpdf_partial {Num} (num_central : Num -> R) gamma_cdf gamma_logpdf num_logpdf (d : dist Num) :
  documented d ->
  delta_logpdf num_central gamma_cdf gamma_logpdf num_logpdf d (central num_central d) = Fin 0 /\
  (unimodal d -> forall x, not_positive (delta_logpdf num_central gamma_cdf gamma_logpdf num_logpdf d x)).
Proof. apply delta_spec. Qed.
Print Assumptions C41_relative_logpdf_partial.
Example C41_instance : documented (@AsymmetricNormal Empty_set 1 2 3) /\ unimodal (@AsymmetricNormal Empty_set 1 2 3) /\
  documented (@LogNormal Empty_set (-1) 2).
Proof. cbn. repeat split; lra. Qed.

(** ** C76: the asymmetric normal distribution is continuous, and samples follow its density: with
    probability l/(r+l) the value is the centre minus a half-normal variate of width l, otherwise the
    centre plus a half-normal variate of width r, and the density is this mixture *)
Theorem C76_asymmetric_normal {Num} (num_central : Num -> R) gamma_cdf gamma_logpdf num_logpdf c r l :
  0 < r -> 0 < l ->
  let a := l / (r + l) in
  let density := fun x => match logpdf num_central gamma_cdf gamma_logpdf num_logpdf (AsymmetricNormal c r l) x with
                          | Some v => exp v | None => 0 end in
  (forall x, x < c -> density x = a * (2 * gauss x c l)) /\
  (forall x, c <= x -> density x = (1 - a) * (2 * gauss x c r)) /\
  continuity density /\
  (forall u nl nr, u <= a -> asymmetric_random c r l u nl nr = c - l * Rabs nl) /\
  (forall u nl nr, a < u -> asymmetric_random c r l u nl nr = c + r * Rabs nr).
Proof.
  intros Hr Hl a density.
  assert (E : forall x, density x = if Rlt_dec x c then l / (r + l) * (2 * gauss x c l) else (1 - l / (r + l)) * (2 * gauss x c r)).
  { intro x. destruct (asymmetric_density num_central gamma_cdf gamma_logpdf num_logpdf c r l x Hr Hl) as (v & Ev & Hv).
    unfold density. rewrite Ev. exact Hv. }
  split; [|split; [|split; [|split]]].
  - intros x Hx. rewrite E. dec; [reflexivity|lra].
  - intros x Hx. rewrite E. dec; [lra|reflexivity].
  - intro x. eapply (continuity_pt_locally_ext _ _ 1); [lra| |apply (asymmetric_continuous c r l Hr Hl)].
    intros y _. symmetry. apply E.
  - intros u nl nr Hu. apply asymmetric_random_side; assumption.
  - intros u nl nr Hu. apply asymmetric_random_side; assumption.
Qed.
Print Assumptions C76_asymmetric_normal.

(** ** C77: an upper limit has the stated confidence level below it *)
Theorem C77_gaussian_upper_limit {Num} (num_central : Num -> R) gamma_cdf norm_ppf norm_cdf limit cl (d : dist Num) :
  normal_quantiles norm_ppf norm_cdf -> 0 < cl < 1 ->
  mk_gaussian_upper_limit norm_ppf limit cl = Ok d -> cdf num_central gamma_cdf norm_cdf d limit = Some cl.
Proof. apply gul_cdf. Qed.
Print Assumptions C77_gaussian_upper_limit.
Theorem C77_gamma_upper_limit {Num} (num_central : Num -> R) gamma_ppf gamma_cdf norm_cdf limit cl total background signal (d : dist Num) :
  gamma_functions gamma_ppf gamma_cdf -> cl < 1 ->
  mk_gamma_upper_limit gamma_ppf gamma_cdf limit cl total background signal = Ok d ->
  cdf num_central gamma_cdf norm_cdf d limit = Some cl.
Proof. apply gamma_ul_cdf. Qed.
Print Assumptions C77_gamma_upper_limit.
(** the hypotheses can be met: e.g. by the exponential distribution *)
Definition exp_cdf (a loc scale x : R) : R := if Rle_dec x loc then 0 else 1 - exp (- ((x - loc) / scale)).
Definition exp_ppf (a loc scale q : R) : R := loc - scale * ln (1 - q).
Lemma exponential : gamma_functions exp_ppf exp_cdf.
Proof.
  unfold gamma_functions, exp_ppf, exp_cdf. split; [|split].
  - intros a loc scale q Ha Hs Hq. destruct (Req_EM_T q 0) as [->|Hn].
    { replace (1 - 0) with 1 by ring. rewrite ln_1. dec; [reflexivity|lra]. }
    assert (ln (1 - q) < 0) by (rewrite <- ln_1; apply ln_increasing; lra).
    assert (scale * ln (1 - q) < 0) by nra. dec; [lra|].
    replace (- ((loc - scale * ln (1 - q) - loc) / scale)) with (ln (1 - q)) by (field; lra).
    rewrite exp_ln by lra. ring.
  - intros a loc scale x Ha Hs. dec; [lra|]. pose proof (exp_pos (- ((x - loc) / scale))). split; [|lra].
    assert (0 < (x - loc) / scale) by (apply Rdiv_lt_0_compat; lra).
    assert (exp (- ((x - loc) / scale)) < 1) by (rewrite <- exp_0; apply exp_increasing; lra). lra.
  - intros a loc scale k x Hk Hs. dec; try nra. do 3 f_equal. field. lra.
Qed.
Example C77_instance : exists d, mk_gamma_upper_limit (Num := Empty_set) exp_ppf exp_cdf 10 (1 / 2) (Some 3) (Some 1) None = Ok d.
Proof.
  unfold mk_gamma_upper_limit. dec; try lra. unfold mk_gamma_counting at 1. destruct (Rle_dec 1 0); [lra|].
  destruct (fix_counts_two 3 1 2) as (E & _); [lra|lra|lra|]. rewrite E. cbn [bind]. destruct (Rlt_dec 0 (- (1) * 1)); [lra|]. cbv zeta iota beta.
  set (L := gamma_positive_ppf exp_ppf exp_cdf (3 + 1) (- (1) * 1) 1 (1 / 2)).
  assert (HL : 0 < L).
  { unfold L, gamma_positive_ppf, exp_ppf, exp_cdf. destruct (Rle_dec 0 (- (1) * 1)); [lra|].
    replace (- ((0 - - (1) * 1) / 1)) with (-1) by lra.
    replace (1 - ((1 - (1 - exp (-1))) * (1 / 2) + (1 - exp (-1)))) with (exp (-1) * (1 / 2)) by lra.
    rewrite ln_mult by (try apply exp_pos; lra). rewrite ln_exp.
    assert (ln (1 / 2) < 0) by (rewrite <- ln_1; apply ln_increasing; lra). lra. }
  assert (0 < 10 / L) by (apply Rdiv_lt_0_compat; lra).
  assert (E' : mk_gamma_counting (Num := Empty_set) (10 / L) (Some 3) (Some 1) None = Ok (GammaCounting (10 / L) 3 1 2)).
  { unfold mk_gamma_counting. destruct (Rle_dec (10 / L) 0); [lra|]. rewrite E. cbn [bind].
    destruct (Rlt_dec 0 (- (1) * (10 / L))); [lra|reflexivity]. }
  exists (GammaUpperLimit 10 (1 / 2) (10 / L) 3 1 2). cbn [bind]. fold L. rewrite E'. reflexivity.
Qed.

(** ** C78: two of the three numbers of counts determine the third *)
Theorem C78_counts {Num} sf t b s :
  0 < sf -> 0 <= t -> 0 <= b -> t = s + b ->
  let d := Ok (@GammaCounting Num sf t b s) in
  mk_gamma_counting sf (Some t) (Some b) None = d /\ mk_gamma_counting sf (Some t) None (Some s) = d /\
  mk_gamma_counting sf None (Some b) (Some s) = d /\ mk_gamma_counting sf (Some t) (Some b) (Some s) = d /\
  (forall x, mk_gamma_counting (Num := Num) sf x None None = Err ValueError /\ mk_gamma_counting (Num := Num) sf None x None = Err ValueError /\
             mk_gamma_counting (Num := Num) sf None None x = Err ValueError).
Proof.
  intros Hsf Ht Hb E d. unfold mk_gamma_counting. destruct (Rle_dec sf 0); [lra|].
  destruct (fix_counts_two t b s Ht Hb E) as (E1 & E2 & E3 & E4). rewrite E1, E2, E3, E4. cbn [bind].
  destruct (Rlt_dec 0 (- b * sf)); [nra|]. repeat split; try reflexivity;
    rewrite fix_counts_fewer; try reflexivity; destruct x; exact I.
Qed.
Print Assumptions C78_counts.
(** negative numbers of counts and contradicting numbers (up to the relative tolerance 1e-15) are rejected *)
Theorem C78_wrong_counts_rejected {Num} sf t b s :
  0 < sf ->
  (forall x y, t < 0 -> mk_gamma_counting (Num := Num) sf (Some t) x y = Err ValueError) /\
  (forall x y, b < 0 -> mk_gamma_counting (Num := Num) sf x (Some b) y = Err ValueError) /\
  (t > 0 -> Rabs (t - (b + s)) > 1e-15 * t -> mk_gamma_counting (Num := Num) sf (Some t) (Some b) (Some s) = Err ValueError).
Proof.
  intros Hsf. unfold mk_gamma_counting. destruct (Rle_dec sf 0); [lra|]. repeat split.
  - intros x y Ht. unfold fix_counts. destruct (Rlt_dec t 0); [reflexivity|lra].
  - intros x y Hb. unfold fix_counts. destruct (Rlt_dec b 0); [|lra].
    destruct x as [x|]; [destruct (Rlt_dec x 0); reflexivity|reflexivity].
  - intros Ht H. unfold fix_counts. destruct (Rlt_dec t 0); [lra|]. destruct (Rlt_dec b 0); [reflexivity|].
    destruct (Req_EM_T t 0); [lra|]. destruct (Rlt_dec 1e-15 (Rabs ((t - b - s) / t))) as [|n']; [reflexivity|].
    exfalso. apply n'. change (1e-15 < Rabs ((t - b - s) * / t)). rewrite Rabs_mult, (Rabs_right (/ t)) by (left; now apply Rinv_0_lt_compat).
    replace (t - b - s) with (t - (b + s)) by ring.
    apply Rmult_lt_reg_r with t; [lra|]. rewrite Rmult_assoc, Rinv_l, Rmult_1_r by lra. exact H.
Qed.
Print Assumptions C78_wrong_counts_rejected.
Example C78_wrong_counts_rejected_instance :
  mk_gamma_counting (Num := Empty_set) 1 (Some 3) (Some 1) (Some 1) = Err ValueError /\ Rabs (3 - (1 + 1)) > 1e-15 * 3.
Proof.
  assert (H : Rabs (3 - (1 + 1)) > 1e-15 * 3) by (replace (3 - (1 + 1)) with 1 by ring; rewrite Rabs_R1; lra).
  split; [|exact H]. apply (C78_wrong_counts_rejected (Num := Empty_set) 1 3 1 1); [lra|lra|exact H].
Qed.
(** ** C79 (fails): GammaUpperLimit accepts only the pair (total, background), although
    GammaCountingProcess accepts every pair and the argument counts_signal is documented *)
Theorem C79_gamma_upper_limit_counts_refuted {Num} gamma_ppf gamma_cdf limit cl :
  (forall b s d, mk_gamma_upper_limit (Num := Num) gamma_ppf gamma_cdf limit cl None (Some b) (Some s) <> Ok d) /\
  (forall t s d, mk_gamma_upper_limit (Num := Num) gamma_ppf gamma_cdf limit cl (Some t) None (Some s) <> Ok d).
Proof.
  split; intros x s d E; apply gamma_ul_inv in E as (sf & t' & b' & s1 & s' & _ & _ & _ & _ & Ht & Hb & _); discriminate.
Qed.
Print Assumptions C79_gamma_upper_limit_counts_refuted.

(** ** C81: the n-sigma range of a log-normal distribution extends from central value / factor^n to
    central value * factor^n (the other way round for negative central values) *)
Theorem C81_lognormal_errors {Num} norm_ppf conf_level c f n :
  norm_ppf (1 / 2 + conf_level n / 2) = n -> norm_ppf (1 / 2 - conf_level n / 2) = - n ->
  c <> 0 -> 1 < f -> 0 <= n ->
  exists el er, error_left norm_ppf conf_level (@LogNormal Num c f) n = Some el /\
    error_right norm_ppf conf_level (@LogNormal Num c f) n = Some er /\ 0 <= el /\ 0 <= er /\
    (0 < c -> c - el = c / Rpower f n /\ c + er = c * Rpower f n) /\
    (c < 0 -> c - el = c * Rpower f n /\ c + er = c / Rpower f n).
Proof. unfold Rpower. apply lognormal_errors. Qed.
Print Assumptions C81_lognormal_errors.
Example C81_instance : let ppf := fun q => 2 * q - 1 in let cl := fun n => n in
  ppf (1 / 2 + cl 1 / 2) = 1 /\ ppf (1 / 2 - cl 1 / 2) = - (1).
Proof. cbv zeta beta. lra. Qed.

(** ** C83: distributions survive the conversion to a dictionary and back *)
Theorem C83_dictionary_roundtrip_partial {Num} norm_ppf gamma_ppf gamma_cdf (d : dist Num) :
  constructed norm_ppf gamma_ppf gamma_cdf d ->
  match d with GammaCounting _ t _ _ => 0 <= t | DiscreteUniform lo hi _ => (lo <= hi)%Z | _ => True end ->
  exists kw, get_dict d = Some kw /\ dict2dist norm_ppf gamma_ppf gamma_cdf (dist_name d) kw = Ok d.
Proof. apply roundtrip. Qed.
Print Assumptions C83_dictionary_roundtrip_partial.
Example C83_instance norm_ppf gamma_ppf gamma_cdf : constructed norm_ppf gamma_ppf gamma_cdf (@AsymmetricNormal Empty_set 1 2 3).
Proof. do 5 right. left. exists 1, 2, 3. apply mk_asymmetric_spec; lra. Qed.
(** What is not an argument of the class is rejected, as is a missing argument *)
Theorem C83_wrong_arguments_rejected {Num} norm_ppf gamma_ppf gamma_cdf (d : dist Num) kw kw' :
  get_dict d = Some kw ->
  (forall k v, In (k, v) kw' -> ~ In k (map fst kw) -> dict2dist (Num := Num) norm_ppf gamma_ppf gamma_cdf (dist_name d) kw' = Err TypeError) /\
  (forall k, In k (map fst kw) -> ~ In k (map fst kw') ->
     ~ In k ["scale_factor"; "counts_total"; "counts_background"; "counts_signal"]%string ->
     ~ (k = "central_value"%string /\ dist_name d = "discrete_uniform"%string) ->
     dict2dist (Num := Num) norm_ppf gamma_ppf gamma_cdf (dist_name d) kw' = Err TypeError).
Proof. apply wrong_arguments. Qed.
Print Assumptions C83_wrong_arguments_rejected.
Example C83_wrong_arguments_instance norm_ppf gamma_ppf gamma_cdf :
  dict2dist (Num := Empty_set) norm_ppf gamma_ppf gamma_cdf "normal" [("central_value", VR 1); ("standard_deviation", VR 1); ("sigma", VR 2)]%string = Err TypeError.
Proof.
  destruct (C83_wrong_arguments_rejected norm_ppf gamma_ppf gamma_cdf (@Normal Empty_set 1 2) _ [("central_value", VR 1); ("standard_deviation", VR 1); ("sigma", VR 2)]%string eq_refl) as [H _].
  apply (H "sigma"%string (VR 2)); [right; right; left; reflexivity|].
  cbn. intros [E|[E|[]]]; discriminate.
Qed.
(** It fails for kernel density estimates (whose kernel becomes a dictionary that is not converted
    back) and for GeneralGammaUpperLimit with a small background uncertainty *)
Theorem C83_kernel_refuted {Num} (num_central : Num -> R) (d : dist Num) :
  check_kernel num_central (KInstance d) = Ok d ->
  forall k, kernel_entry true d = Some k -> check_kernel num_central k = Err AttributeError.
Proof. intros _ k. unfold kernel_entry. destruct (get_dict d); cbn; [|discriminate]. intro E. injection E as <-. reflexivity. Qed.
Print Assumptions C83_kernel_refuted.
Theorem C83_general_gamma_refuted :
  exists t std bs bv, 0 < t /\ general_background t (Some std) None = Ok (bs, bv) /\
    general_background t (Some bs) (Some bv) = Err ValueError.
Proof.
  exists 3, (1 / 100), 0, (1 / 100). split; [lra|].
  assert (Hs : sqrt (3 + 1) = 2) by (replace (3 + 1) with (2 * 2) by ring; apply sqrt_square; lra).
  assert (E : general_background 3 (Some (1 / 100)) None = Ok (0, 1 / 100)).
  { unfold general_background. cbn [bind]. destruct (Rlt_dec (1 / 100) 0); [lra|]. rewrite Hs. destruct (Rlt_dec (1 / 100 / 2) (1 / 100)); [reflexivity|lra]. }
  split; [exact E|]. eapply (general_background_again 3); [lra|exact E|]. rewrite Hs. lra.
Qed.
Print Assumptions C83_general_gamma_refuted.
