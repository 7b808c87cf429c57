(** * Properties C41 (multivariate), C42, C43, C107-C111: multivariate normal distributions *)
From Coq Require Import Reals ZArith Lra Lia.
From Coq Require List.
From Verif Require Base.
From mathcomp Require Import all_ssreflect all_algebra.
From Verif Require Import RealField.
From Verif Require Import MVN_Model MVN_Spec MVN_Proofs MVN_Proofs2 MVN_Proofs3 MVN_Proofs4.
Set Implicit Arguments.
Unset Strict Implicit.
Unset Printing Implicit Defensive.
Import GRing.Theory.
Local Open Scope ring_scope.

Lemma convolve2 eig n same (o o' : operand n) l : convolve eig same (o :: o' :: l) =
  if same && ~~ all (fun p => op_central p == op_central o) (o :: o' :: l) then Err Base.AssertionError
  else
    let gaussians := pmap (@gaussian n) (o :: o' :: l) in
    let others := [seq p <- o :: o' :: l | ~~ isSome (gaussian p)] in
    if (~~ nilp gaussians) && (size others == 0%N) then Base.bind (convolve_gaussians eig same gaussians) (fun d => Ok (Returned d))
    else
      Base.bind (if gaussians is [::] then Ok tt else Base.bind (convolve_gaussians eig same gaussians) (fun _ => Ok tt)) (fun _ =>
      if (1 < size others)%N then Ok (PyNone n) else Ok (NumericalConvolution n)).
Proof. by []. Qed.
Section Props.
  (** the test of the eigenvalues, which decides whether a symmetric matrix is positive definite *)
  Variable eig : forall n, 'M[R]_n -> bool.
  Hypothesis eigP : forall n (a : 'M[R]_n), a^T = a -> eig a <-> posdef a.

  (** *** C107: the constructor *)
  (** A symmetric matrix is accepted if and only if it is positive definite; it is kept, standard deviations and
      correlations follow from it, and other arguments are ignored. *)
  Theorem C107_covariance : forall n (c : 'cV[R]_n) (s : 'M[R]_n) o r, s^T = s ->
    (posdef s -> exists d, init (@eig) c (Some s) o r = Ok d /\ mu d = c /\ cov d = s /\
       (forall i, sd d i 0 = sqrt (s i i)) /\
       (forall i j, corr d i j * (sqrt (s i i) * sqrt (s j j)) = s i j)) /\
    (~ posdef s -> (exists i, ~ Rlt 0 (s i i)) /\ init (@eig) c (Some s) o r = Err Base.ValueError \/
       (forall i, Rlt 0 (s i i)) /\ init (@eig) c (Some s) o r = Err Base.AssertionError).
  Proof.
    move=> n c s o r hs. rewrite /init (complete_sym hs). set d := Mvn _ _ _ _. have [h1 h2] := check_spec eigP (d := d) hs.
    split; last exact: h2. move=> hp. exists d. split; first exact: h1. do 2 split=> //. split; first by move=> i; rewrite mxE.
    have sq i : Rlt 0 (sqrt (s i i)) by apply: sqrt_lt_R0; exact: posdef_diag.
    move=> i j. rewrite !mxE. case: (eqVneq i j) => [<-|_].
    - rewrite mul1r. rewrite RmulE sqrt_sqrt //. left. exact: posdef_diag.
    - rewrite divfK // mulf_eq0 negb_or. by apply/andP; split; apply: Rlt_ne0.
  Qed.
  (** If only the elements above the diagonal are given (one of them larger than 1e-8), they are reflected. *)
  Theorem C107_triangle : forall n (c : 'cV[R]_n) (s : 'M[R]_n) o r,
    (forall i j : 'I_n, (j < i)%N -> s i j = 0) -> (exists i j : 'I_n, (i < j)%N /\ Rlt (1 / 100000000) (Rabs (s i j))) ->
    init (@eig) c (Some s) o r = init (@eig) c (Some (\matrix_(i, j) if (i <= j)%N then s i j else s j i)) o r.
  Proof.
    move=> n c s o r h1 h2. rewrite /init (complete_triangle h1 h2) complete_sym //.
    apply/matrixP => i j. rewrite !mxE. by case: (ltngtP i j) => // /val_inj ->.
  Qed.
  (** With standard deviations, the covariances are products of standard deviations and correlations: none, equal
      ones for all pairs, or those of a symmetric matrix. *)
  Theorem C107_deviations : forall n (c s : 'cV[R]_n) (a : corr_arg n) (r : 'M[R]_n),
    match a with
    | NoCorrelation => forall i j, r i j = if i == j then 1 else 0
    | Number x => forall i j, r i j = if i == j then 1 else x
    | Matrix m => r = m /\ m^T = m
    end ->
    let t := \matrix_(i, j) (s i 0 * s j 0 * r i j) in
    (posdef t -> exists d, init (@eig) c None (Some s) a = Ok d /\ mu d = c /\ cov d = t /\ sd d = s /\ corr d = r) /\
    (~ posdef t -> exists e, init (@eig) c None (Some s) a = Err e) /\
    init (@eig) c None None a = Err Base.ValueError.
  Proof.
    move=> n c s a r ha t.
    have e : init (@eig) c None (Some s) a = check (@eig) (Mvn c t s r).
    { rewrite /init.
      have -> : match a with NoCorrelation => 1%:M | Number x => 1%:M + \matrix_(i, j) ((1 - (i == j)%:R) * x) | Matrix r => complete r end = r.
      { case: a ha => [h|x h|m [-> h]]; last by rewrite complete_sym.
        - apply/matrixP => i j. rewrite !mxE h. by case: eqP.
        - apply/matrixP => i j. rewrite !mxE h. case: eqP => _; first by rewrite subrr mul0r addr0. by rewrite subr0 mul1r add0r. }
      have -> // : \matrix_(i, j) (outer s i j * r i j) = t by apply/matrixP => i j; rewrite !mxE. }
    have hr : r^T = r.
    { case: a ha {e} => [h|x h|m [-> //]]; apply/matrixP => i j; rewrite mxE !h eq_sym //. }
    have ht : t^T = t by apply/matrixP => i j; rewrite !mxE -{1}hr mxE [s j 0 * _]mulrC.
    have [h1 h2] := check_spec eigP (d := Mvn c t s r) ht. rewrite e. split; [|split=> //].
    - move=> hp. exists (Mvn c t s r). split; first exact: h1. by [].
    - move=> hp. case: (h2 hp) => [[_ ->]|[_ ->]]; by eexists.
  Qed.
  Theorem C107_errors : forall n (d : mvn n) k i, error d k i 0 = (k * sqrt (cov d i i))%coqR.
  Proof. by move=> n d k i; rewrite !mxE. Qed.

  (** *** C43: the density *)
  (** Every distribution that can be constructed from a symmetric matrix has the normal density for it. *)
  Theorem C43_density : forall n (c : 'cV[R]_n) (s p : 'M[R]_n) o r d x, s^T = s -> p *m s = 1%:M ->
    init (@eig) c (Some s) o r = Ok d -> logpdf d x = log_density c s p x.
  Proof.
    move=> n c s p o r d x hs hp hi. have [h1 h2] := C107_covariance c o r hs.
    case: (Classical_Prop.classic (posdef s)) => h; last by case: (h2 h) => [[_]|[_]]; rewrite hi.
    have [d' [e [e1 [e2 _]]]] := h1 h. rewrite hi in e. case: e => e. subst d'. rewrite -e1 -e2 in hp h *. exact: logpdf_density.
  Qed.
  (** It has its only maximum at the central value. *)
  Theorem C43_mode : forall n (c : 'cV[R]_n) (s : 'M[R]_n) o r d x, s^T = s -> init (@eig) c (Some s) o r = Ok d ->
    x <> c -> Rlt (logpdf d x) (logpdf d c).
  Proof.
    move=> n c s o r d x hs hi hx. have [h1 h2] := C107_covariance c o r hs.
    case: (Classical_Prop.classic (posdef s)) => h; last by case: (h2 h) => [[_]|[_]]; rewrite hi.
    rewrite !(C43_density _ hs (has_inverse h) hi). exact: density_max (has_inverse h) hx.
  Qed.

  (** *** C42: removing components *)
  (** The mean and the covariance of the reduced distribution are those of the remaining positions, in order. *)
  Theorem C42_reduce : forall n (d : mvn n) ex m (f : 'I_m -> 'I_n), posdef (cov d) ->
    ex <> [::] -> (forall e, List.In e ex -> Z.le (- Z.of_nat n) e /\ Z.lt e (Z.of_nat n)) -> remaining ex f ->
    (m = 1%N -> forall i, reduce_dimension (@eig) d ex = Ok (Uni (mu d (f i) 0) (sqrt (cov d (f i) (f i))))) /\
    (m <> 1%N -> exists d' : mvn m, reduce_dimension (@eig) d ex = Ok (Multi d') /\
       (forall i, mu d' i 0 = mu d (f i) 0) /\ (forall i j, cov d' i j = cov d (f i) (f j))).
  Proof.
    move=> n d ex m f hs hne hr rf.
    have hr' : all (in_range n) ex.
    { elim: ex hr {hne rf} => //= e ex IH hr. apply/andP. split; last by apply: IH => e' h; apply: hr; right.
      have [h1 h2] := hr e (or_introl erefl). rewrite /in_range. by apply/andP; split; [apply/Z.leb_spec0|apply/Z.ltb_spec0]. }
    have [h1 h2] := reduce_spec eigP hs hne hr' rf. split=> // hm. have [d' [E [Em Ec]]] := h2 hm.
    exists d'. split=> //. split; first by move=> i; rewrite Em mxE. by move=> i j; rewrite Ec mxE.
  Qed.
  (** There are such positions for every list, and they are unique. *)
  Theorem C42_positions : forall n (ex : seq Z),
    exists m (f : 'I_m -> 'I_n), remaining ex f /\
      forall m' (g : 'I_m' -> 'I_n), remaining ex g -> m' = m /\ forall i j, val i = val j -> f i = g j.
  Proof.
    move=> n ex. exists (size (kept n ex)), (fun i => tnth (in_tuple (kept n ex)) i). split; first exact: kept_remaining.
    move=> m' g hg. have [e h] := remaining_unique (kept_remaining n ex) hg. by split.
  Qed.
  (** Nothing is removed without positions; positions outside of the range are refused. *)
  Theorem C42_range : forall n (d : mvn n), reduce_dimension (@eig) d [::] = Ok (Multi d) /\
    (forall ex e, List.In e ex -> ~ (Z.le (- Z.of_nat n) e /\ Z.lt e (Z.of_nat n)) -> reduce_dimension (@eig) d ex = Err Base.IndexError).
  Proof.
    move=> n d. split=> // ex e he hr.
    have h : all (in_range n) ex = false.
    { elim: ex he => //= a ex IH [->|/IH ->]; last by rewrite andbF.
      apply/negbTE/negP => /andP [/andP [/Z.leb_spec0 h1 /Z.ltb_spec0 h2] _]. by apply: hr. }
    rewrite /reduce_dimension h. by case: ex he h.
  Qed.
  (** The density with components excluded is that of the remaining means and covariances. *)
  Theorem C42_logpdf : forall n (d : mvn n) ex m (f : 'I_m -> 'I_n) p (x : seq R), posdef (cov d) ->
    (forall e, List.In e ex -> Z.le (- Z.of_nat n) e /\ Z.lt e (Z.of_nat n)) -> remaining ex f -> size x = m ->
    p *m (\matrix_(i, j) cov d (f i) (f j)) = 1%:M ->
    logpdf_exclude (@eig) d x (Some ex) =
      Ok (log_density (\col_i mu d (f i) 0) (\matrix_(i, j) cov d (f i) (f j)) p (\col_i nth 0 x i)).
  Proof.
    move=> n d ex m f p x hs hr rf hx hp. apply: logpdf_ex => //.
    elim: ex hr {rf} => //= e ex IH hr. apply/andP. split; last by apply: IH => e' h; apply: hr; right.
    have [h1 h2] := hr e (or_introl erefl). rewrite /in_range. by apply/andP; split; [apply/Z.leb_spec0|apply/Z.ltb_spec0].
  Qed.
  (** The remaining covariance is positive definite again, so it has an inverse. *)
  Theorem C42_positive : forall n (d : mvn n) ex m (f : 'I_m -> 'I_n), posdef (cov d) -> remaining ex f ->
    posdef (\matrix_(i, j) cov d (f i) (f j)) /\ exists p, p *m (\matrix_(i, j) cov d (f i) (f j)) = 1%:M.
  Proof.
    move=> n d ex m f hs [mono _]. have h : posdef (\matrix_(i, j) cov d (f i) (f j)).
    { apply: select_posdef => //. move=> i j e. case: (ltngtP i j) => [/mono|/mono|/val_inj //]; by rewrite e ltnn. }
    split=> //. eexists. exact: has_inverse.
  Qed.

  (** *** C41: the density relative to the maximum, with excluded (non-negative) positions *)
  Theorem C41_multivariate : forall n (d : mvn n) ex m (f : 'I_m -> 'I_n) (x : seq R), posdef (cov d) ->
    (forall e, List.In e ex -> Z.le 0 e /\ Z.lt e (Z.of_nat n)) -> remaining ex f -> size x = m ->
    exists v, delta_logpdf (@eig) d x (Some ex) = Ok v /\
      ((forall i, nth 0 x (val i) = mu d (f i) 0) -> v = 0) /\
      (~ (forall i, nth 0 x (val i) = mu d (f i) 0) -> Rlt v 0).
  Proof.
    move=> n d ex m f x hs hr rf hx. have [hsub [p hp]] := C42_positive hs rf.
    have hr' e : List.In e ex -> Z.le (- Z.of_nat n) e /\ Z.lt e (Z.of_nat n) by move/hr => [h1 h2]; split=> //; lia.
    have hr0 e : List.In e ex -> Z.leb 0 e by move=> /hr [h _]; apply/Z.leb_spec0.
    rewrite /delta_logpdf (central_ex d hr0 rf) (C42_logpdf hs hr' rf hx hp).
    rewrite (C42_logpdf hs hr' rf (x := [seq mu d (f i) 0 | i <- enum 'I_m]) _ hp); last by rewrite size_map size_enum_ord.
    rewrite /=.
    have -> : \col_i nth 0 [seq mu d (f i) 0 | i <- enum 'I_m] i = \col_i mu d (f i) 0.
    { rewrite -[RHS]col_seq. apply/colP => i. rewrite !mxE. congr (nth _ _ _). apply: eq_map => j. by rewrite mxE. }
    eexists. split; first by []. split.
    - move=> h. have -> : \col_i nth 0 x i = \col_i mu d (f i) 0 by apply/colP => i; rewrite !mxE h. by rewrite subrr.
    - move=> h. have hx' : \col_i nth 0 x i <> \col_i mu d (f i) 0.
      { move=> e. apply: h => i. have := congr1 (fun w : 'cV_m => w i 0) e. by rewrite !mxE. }
      have := density_max hsub hp hx'. rewrite RaddE RoppE. set a := log_density _ _ _ _. set b := log_density _ _ _ _. lra.
  Qed.

  (** *** C109: combination and convolution *)
  (** The combination of distributions has the product of their densities as density, up to a factor. *)
  Theorem C109_combination : forall n (ds : seq (mvn n)), ds <> [::] -> List.Forall (fun d => posdef (cov d)) ds ->
    exists d, combine_gaussians (@eig) ds = Ok d /\ posdef (cov d) /\
      exists K, forall x, \sum_(d0 <- ds) logpdf d0 x = (logpdf d x + K)%coqR.
  Proof. exact: combine_spec. Qed.
  (** In a convolution the covariances add; the central values add, or are the common one. *)
  Theorem C109_convolution : forall n (same : bool) (a b : mvn n * kind) (l : seq (mvn n * kind)),
    let ds := a :: b :: l in
    List.Forall (fun d => posdef (cov d.1)) ds ->
    (same -> List.Forall (fun d => mu d.1 = mu a.1 /\ d.2 = AsList) ds) ->
    exists d, convolve (@eig) same [seq Gauss d.1 d.2 | d <- ds] = Ok (Returned d) /\
      cov d = \sum_(d0 <- ds) cov d0.1 /\ mu d = if same then mu a.1 else \sum_(d0 <- ds) mu d0.1.
  Proof.
    move=> n same a b l ds hs hc.
    have hsum : posdef (\sum_(d <- ds) cov d.1).
    { have -> : \sum_(d <- ds) cov d.1 = \sum_(s <- [seq cov d.1 | d <- ds]) s by rewrite big_map.
      apply: sum_posdef => //. elim: (ds) hs => [|d0 ds0 IH] h; constructor; inversion h; subst=> //. exact: IH. }
    have eigT k (m : 'M[R]_k) : posdef m -> eig m by move=> h; apply/eigP => //; case: h.
    have eg : pmap (@gaussian n) [seq Gauss d.1 d.2 | d <- ds] = ds.
    { elim: (ds) => //= d0 ds0 ->. by case: d0. }
    have eo : [seq p <- [seq Gauss d.1 d.2 | d <- ds] | ~~ isSome (gaussian p)] = [::].
    { elim: (ds) => //=. }
    have conv : convolve (@eig) same [seq Gauss d.1 d.2 | d <- ds] =
      if same && ~~ all (fun p => op_central p == mu a.1) [seq Gauss d.1 d.2 | d <- ds] then Err Base.AssertionError
      else Base.bind (convolve_gaussians (@eig) same ds) (fun d => Ok (Returned d)).
    { rewrite [in LHS]/ds [map _ _]/= convolve2. rewrite -[Gauss a.1 a.2 :: _]/([seq Gauss d.1 d.2 | d <- ds]) eg eo. by []. }
    rewrite conv.
    have cond : same && ~~ all (fun p => op_central p == mu a.1) [seq Gauss d.1 d.2 | d <- ds] = false.
    { have al l' : List.Forall (fun d => mu d.1 = mu a.1 /\ d.2 = AsList) l' -> all (fun p : operand n => op_central p == mu a.1) [seq Gauss d.1 d.2 | d <- l'].
      { elim: l' => // d0 ds0 IH h. inversion h as [|? ? [h1 _] h2]; subst. rewrite /= h1 eqxx. exact: IH. }
      case: same hc {conv} => hc //. rewrite al //. exact: hc. }
    rewrite cond /convolve_gaussians {1 2}/ds -/ds.
    case: same hc {conv cond} => hc; last by rewrite init_posdef //=; eexists.
    have -> : all_same a (a :: b :: l) = Ok true.
    { have ha : a.2 = AsList by move: (hc erefl) => h3; inversion h3 as [|? ? [_ h4]].
      have al l' : List.Forall (fun d => mu d.1 = mu a.1 /\ d.2 = AsList) l' -> all_same a l' = Ok true.
      { elim: l' => // d0 ds0 IH h. inversion h as [|? ? [h1 h1'] h2]; subst. rewrite /= /same_central h1' ha h1 eqxx /=. exact: IH. }
      apply: al. exact: hc. }
    rewrite /Base.bind init_posdef //=. by eexists.
  Qed.

  (** *** C110: two failures of convolution *)
  (** Central values given as arrays cannot be compared: the convolution around a common central value fails, with
      at least two components. *)
  Theorem C110_arrays_refuted : forall n (a b : mvn n) (l : seq (mvn n)) k, n <> 1%N ->
    List.Forall (fun d => mu d = mu a) (a :: b :: l) ->
    convolve (@eig) true (Gauss a AsArray :: [seq Gauss d k | d <- b :: l]) = Err Base.ValueError.
  Proof.
    move=> n a b l k hn hc. rewrite /convolve.
    have -> : all (fun p => op_central p == op_central (Gauss a AsArray)) (Gauss a AsArray :: [seq Gauss d k | d <- b :: l]).
    { rewrite /= eqxx /=. inversion hc as [|? ? _ hc']; subst. inversion hc' as [|? ? h1 hc'']; subst. rewrite h1 eqxx /=.
      elim: (l) hc'' => //= d l0 IH h. inversion h as [|? ? h2 h3]; subst. by rewrite h2 eqxx IH. }
    have eo : [seq p <- Gauss a AsArray :: [seq Gauss d k | d <- b :: l] | ~~ isSome (gaussian p)] = [::].
    { rewrite /=. elim: (l) => //=. }
    rewrite eo.
    have eg : pmap (@gaussian n) (Gauss a AsArray :: [seq Gauss d k | d <- b :: l]) = (a, AsArray) :: (b, k) :: [seq (d, k) | d <- l].
    { rewrite /=. congr (_ :: _ :: _). elim: (l) => //= d l0 -> //. }
    rewrite eg /=. by rewrite /same_central /= (introF eqP hn).
  Qed.
  (** Two or more numerical distributions are "convolved" to None without an error. *)
  Theorem C110_none_refuted : forall n (a b : 'cV[R]_n) (l : seq 'cV[R]_n),
    convolve (@eig) false [seq Numeric c | c <- a :: b :: l] = Ok (PyNone n).
  Proof.
    move=> n a b l. rewrite /convolve /=.
    have -> : pmap (@gaussian n) [seq Numeric c | c <- l] = [::] by elim: (l).
    by [].
  Qed.

  (** *** C108: small covariances are not completed *)
  (** If all elements above the diagonal are small, the matrix is kept without the missing elements, as if there were
      no correlations below the diagonal. *)
  Theorem C108_small_refuted : forall n (c : 'cV[R]_n) (s : 'M[R]_n) o r,
    (forall k (a : 'M[R]_k), triangular_positive a -> eig a) ->
    triangular_positive s -> (forall i j, i <> j -> Rle (Rabs (s i j)) (1 / 200000000)) ->
    exists d, init (@eig) c (Some s) o r = Ok d /\ cov d = s.
  Proof.
    move=> n c s o r hT [ht hd] hsm. rewrite /init close_small //. set d := Mvn _ _ _ _. exists d. split; last by [].
    apply/check_ok. split=> //. split; first exact: hd. apply: hT. split=> [i j hij|i].
    - by rewrite mxE [cov d i j]ht // mul0r.
    - rewrite !mxE. have h := hd i. have -> : GRing.mul (sqrt (cov d i i)) (sqrt (cov d i i)) = cov d i i by rewrite RmulE sqrt_sqrt //; left.
      rewrite divff; [exact: Rlt_0_1|exact: Rlt_ne0].
  Qed.
  (** For example: variances of 1e-18 with a correlation of one half. *)
  Theorem C108_example_refuted : (forall k (a : 'M[R]_k), triangular_positive a -> eig a) ->
    exists (s t : 'M[R]_2) d, (forall i j : 'I_2, (j < i)%N -> s i j = 0) /\ t = (\matrix_(i, j) if (i <= j)%N then s i j else s j i) /\
      posdef t /\ init (@eig) 0 (Some s) None NoCorrelation = Ok d /\ cov d <> t /\ cov d 1 0 = 0.
  Proof.
    move=> hT. pose q : R := (/ 2000000000000000000)%coqR. pose v : R := (2 * q)%coqR.
    have hq : Rlt 0 q by rewrite /q; apply: Rinv_0_lt_compat; lra.
    have hq' : Rlt q (1 / 200000000) by rewrite /q; lra.
    pose s : 'M[R]_2 := \matrix_(i, j) if i == j then v else if (i < j)%N then q else 0.
    pose t : 'M[R]_2 := \matrix_(i, j) if i == j then v else q.
    have tri : triangular_positive s.
    { split=> [i j hij|i]; rewrite mxE; last by rewrite eqxx /v; lra.
      have -> : (i == j) = false by apply/negbTE/eqP => e; rewrite e ltnn in hij. by rewrite ltnNge ltnW. }
    have [d [E1 E2]] : exists d, init (@eig) 0 (Some s) None NoCorrelation = Ok d /\ cov d = s.
    { apply: C108_small_refuted => // i j /eqP hij. rewrite mxE (negbTE hij). case: ifP => _.
      - rewrite Rabs_right; lra.
      - have -> : GRing.zero R_zmodType = 0%coqR by []. rewrite Rabs_R0. lra. }
    exists s, t, d. split; first by case: tri. split; [|split; [|split=> //; split]].
    - apply/matrixP => i j. rewrite !mxE. case: (ltngtP i j) => h.
      + by have -> : (i == j) = false by apply/negbTE/eqP => e; rewrite e ltnn in h.
      + have -> : (i == j) = false by apply/negbTE/eqP => e; rewrite e ltnn in h.
        by have -> : (j == i) = false by apply/negbTE/eqP => e; rewrite e ltnn in h.
      + by have -> : (i == j) by apply/eqP/val_inj.
    - have ts : t^T = t by apply/matrixP => i j; rewrite !mxE eq_sym. split=> // w hw.
      have -> : (w^T *m t *m w) 0 0 = (q * (w 0%R 0%R * w 0%R 0%R + w 1%R 0%R * w 1%R 0%R + (w 0%R 0%R + w 1%R 0%R) * (w 0%R 0%R + w 1%R 0%R)))%coqR.
      { rewrite mxE big_ord_recl big_ord1 !mxE !big_ord_recl !big_ord0 !mxE /=.
        have -> : lift ord0 ord0 = 1 :> 'I_2 by apply/val_inj. have -> : ord0 = 0 :> 'I_2 by apply/val_inj.
        have ar (a b c : R) : ((a * (2 * c) + (b * c + 0)) * a + (a * c + (b * (2 * c) + 0)) * b = c * (a * a + b * b + (a + b) * (a + b)))%coqR by ring.
        exact: ar. }
      apply: Rmult_lt_0_compat => //.
      have [h|h] : w 0 0 <> 0 \/ w 1 0 <> 0.
      { apply: Classical_Prop.NNPP => hn. apply: hw. apply/colP => i. rewrite [RHS]mxE. apply: Classical_Prop.NNPP => h. apply: hn.
        case: i h => [[|[|//]] hi] h; [left|right] => e; apply: h; rewrite -e; congr (w _ _); exact: val_inj. }
      + have := Rsqr_pos_lt _ h. have := Rle_0_sqr (w 1 0). have := Rle_0_sqr (w 0 0 + w 1 0). rewrite /Rsqr. set a := w 0 0. set b := w 1 0. lra.
      + have := Rsqr_pos_lt _ h. have := Rle_0_sqr (w 0 0). have := Rle_0_sqr (w 0 0 + w 1 0). rewrite /Rsqr. set a := w 0 0. set b := w 1 0. lra.
    - rewrite E2 => e. have := congr1 (fun m : 'M_2 => m 1 0) e. rewrite !mxE /=. move: hq. move: (q) => z hz e'. have : 0%coqR = z by exact: e'. lra.
    - by rewrite E2 mxE.
  Qed.
End Props.

(** *** C111: negative positions *)
(** logpdf accepts the position -1 (the last one) in three or more dimensions; delta_logpdf fails. *)
Theorem C111_negative_refuted : forall (eig : forall n, 'M[R]_n -> bool) k (d : mvn k.+1) (x : seq R),
  (forall n (a : 'M[R]_n), a^T = a -> eig n a <-> posdef a) -> posdef (cov d) -> (2 <= k)%N -> size x = k ->
  (exists v, logpdf_exclude eig d x (Some [:: Z.opp 1]) = Ok v) /\
  delta_logpdf eig d x (Some [:: Z.opp 1]) = Err Base.ValueError.
Proof.
  move=> eig k d x eigP hs hk hx.
  pose f (i : 'I_k) : 'I_k.+1 := lift ord_max i.
  have fv i : val (f i) = i by rewrite /f /= /bump leqNgt ltn_ord.
  have rf : remaining [:: Z.opp 1] f.
  { split; first by move=> i j; rewrite -!fv.
    move=> a. split.
    - move=> [i <-] [[h|//]|[h|//]]; have e : nat_of_ord (f i) = i := fv i; have := ltn_ord i; move/ltP => hi; rewrite e in h; lia.
    - move=> h. have ha : (a < k)%N.
      { rewrite ltn_neqAle -ltnS ltn_ord andbT. apply/eqP => e. apply: h. right. left. rewrite e. lia. }
      exists (Ordinal ha). apply/val_inj. by rewrite fv. }
  have hr e : List.In e [:: Z.opp 1] -> Z.le (- Z.of_nat k.+1) e /\ Z.lt e (Z.of_nat k.+1) by move=> [<-|//]; lia.
  have [hsub [p hp]] := C42_positive hs rf.
  have hL := C42_logpdf eigP hs hr rf hx hp. split; first by eexists; exact: hL.
  rewrite /delta_logpdf hL.
  have hk1 : k <> 1%N by move=> e; rewrite e in hk.
  have [_ h2] := C42_reduce eigP hs (ex := [:: Z.opp 1]) ltac:(by []) hr rf.
  have [d' [E _]] := h2 hk1.
  have hc : size (central_exclude d (Some [:: Z.opp 1])) = k.+1.
  { rewrite /central_exclude size_map (_ : [seq i <- enum 'I_k.+1 | _] = enum 'I_k.+1) ?size_enum_ord //.
    apply/all_filterP/allP => i _ /=. rewrite orbF. apply/negP => /Z.eqb_spec. lia. }
  have -> : logpdf_exclude eig d (central_exclude d (Some [:: Z.opp 1])) (Some [:: Z.opp 1]) = Err Base.ValueError; last by [].
  move: (central_exclude _ _) hc => y hy. rewrite /logpdf_exclude E /Base.bind /dist_logpdf hy.
  by have -> : (k.+1 == k) = false by rewrite eqn_leq ltnn.
Qed.

(** *** Cases *)
(** [decide] satisfies the assumptions about the test of the eigenvalues *)
Example C107_example : (forall n (a : 'M[R]_n), a^T = a -> decide a <-> posdef a) /\ (forall n (a : 'M[R]_n), triangular_positive a -> decide a).
Proof. split; [exact: decideP|exact: decide_triangular]. Qed.
(** a positive definite matrix that is not diagonal, in every dimension *)
Example C43_example n : posdef (1%:M + const_mx 1 : 'M[R]_n) /\ exists p, p *m (1%:M + const_mx 1 : 'M[R]_n) = 1%:M.
Proof.
  have h : posdef (1%:M + const_mx 1 : 'M[R]_n).
  { have h1 : posdef (1%:M : 'M[R]_n).
    { apply: diagonal_posdef => [i j h|i]; rewrite mxE; [by case: eqP|rewrite eqxx; exact: Rlt_0_1]. }
    split; first by rewrite linearD /= trmx1 trmx_const.
    move=> v hv. rewrite mulmxDr mulmxDl mxE. apply: Rplus_lt_le_0_compat; first by case: h1 => _; apply.
    have -> : v^T *m const_mx 1 *m v = (v^T *m const_mx 1) *m (const_mx 1 : 'rV_n) *m v.
    { congr (_ *m _). apply/matrixP => i j. rewrite !mxE big_ord1 !mxE mulr1. apply: eq_bigr => k _. by rewrite !mxE. }
    have -> : v^T *m (const_mx 1 : 'cV_n) = ((const_mx 1 : 'rV_n) *m v)^T by rewrite trmx_mul trmx_const.
    rewrite -mulmxA mxE big_ord1 mxE. exact: Rle_0_sqr. }
  split=> //. eexists. exact: has_inverse.
Qed.
(** removing the second of three components *)
Example C42_example : exists (f : 'I_2 -> 'I_3), remaining [:: Zpos xH] f /\ val (f 0) = 0%N /\ val (f 1) = 2%N.
Proof.
  exists (fun i => lift (Ordinal (isT : 1 < 3)%N) i). split; last by [].
  split; first by move=> [[|[|//]] hi] [[|[|//]] hj].
  move=> [[|[|[|//]]] hk]; split.
  - move=> _ [[//|//]|[//|//]].
  - move=> _. exists 0. exact: val_inj.
  - move=> [[[|[|//]] hi]] /(congr1 val) //.
  - move=> h. exfalso. apply: h. left. by left.
  - move=> _ [[//|//]|[//|//]].
  - move=> _. exists 1. exact: val_inj.
Qed.

Print Assumptions C107_covariance.
Print Assumptions C43_density.
Print Assumptions C42_reduce.
Print Assumptions C42_logpdf.
Print Assumptions C41_multivariate.
Print Assumptions C109_combination.
Print Assumptions C108_example_refuted.
