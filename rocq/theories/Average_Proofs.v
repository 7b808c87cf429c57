(** * Proofs about the experimental average *)
From Coq Require List Permutation.
From mathcomp Require Import all_ssreflect all_algebra.
From Verif Require Import Average_Model.
Set Implicit Arguments.
Unset Strict Implicit.
Unset Printing Implicit Defensive.
Import GRing.Theory.
Local Open Scope ring_scope.

(** squared distance in the metric [W] *)
Definition quad (F : fieldType) (n : nat) (W : 'M[F]_n) (x : 'cV[F]_n) : F := (x^T *m W *m x) 0 0.

Section Average.
  Variables (F : fieldType) (n : nat).
  Implicit Types (m : meas F n) (ms : seq (meas F n)) (x y : 'cV[F]_n).

  Lemma masked_sym v m : (cov m)^T = cov m -> (masked v m)^T = masked v m.
  Proof.
    move=> hs; apply/matrixP=> i j; rewrite !mxE andbC eq_sym.
    by rewrite -[in cov m j i]hs mxE.
  Qed.

  Lemma weight_sym m : (cov m)^T = cov m -> (weight m)^T = weight m.
  Proof.
    move=> hs; have hi : (invmx (masked 1 m))^T = invmx (masked 1 m).
      by rewrite trmx_inv masked_sym.
    apply/matrixP=> i j; rewrite !mxE andbC.
    by rewrite -[in invmx _ j i]hi mxE.
  Qed.

  Definition dot x y : F := (x^T *m y) 0 0.
  Lemma dotC x y : dot x y = dot y x.
  Proof. by rewrite /dot -[in RHS](trmxK x) -trmx_mul [RHS]mxE. Qed.
  Lemma dotDl x y z : dot (x + y) z = dot x z + dot y z.
  Proof. by rewrite /dot linearD /= mulmxDl mxE. Qed.
  Lemma dotDr x y z : dot z (x + y) = dot z x + dot z y.
  Proof. by rewrite dotC dotDl !(dotC _ z). Qed.
  Lemma dotNl x y : dot (- x) y = - dot x y.
  Proof. by rewrite /dot linearN /= mulNmx mxE. Qed.
  Lemma dotNr x y : dot x (- y) = - dot x y.
  Proof. by rewrite dotC dotNl dotC. Qed.
  Lemma dotBr x y z : dot z (x - y) = dot z x - dot z y.
  Proof. by rewrite dotDr dotNr. Qed.
  Lemma dot0 x : dot x 0 = 0.
  Proof. by rewrite /dot mulmx0 mxE. Qed.
  Lemma dot_sum (I : Type) (r : seq I) (f : I -> 'cV[F]_n) x :
    dot x (\sum_(i <- r) f i) = \sum_(i <- r) dot x (f i).
  Proof. by elim/big_rec2: _ => [|i a b _ <-]; rewrite ?dot0 ?dotDr. Qed.
  Lemma quadE (W : 'M[F]_n) x : quad W x = dot x (W *m x).
  Proof. by rewrite /quad /dot mulmxA. Qed.
  Lemma dot_sym (W : 'M[F]_n) x y : W^T = W -> dot x (W *m y) = dot y (W *m x).
  Proof. by move=> hW; rewrite dotC /dot trmx_mul hW mulmxA. Qed.

  Lemma quad_sub (W : 'M[F]_n) x y : W^T = W ->
    quad W (x - y) = quad W x - (dot x (W *m y)) *+ 2 + quad W y.
  Proof.
    move=> hW; rewrite !quadE mulmxBr dotBr !dotDl !dotNl (dot_sym y x hW) mulr2n.
    by rewrite !opprD opprK !addrA.
  Qed.

  Definition symmetric m : Prop := (cov m)^T = cov m.

  Lemma sum_sym ms : List.Forall symmetric ms -> (\sum_(m <- ms) weight m)^T = \sum_(m <- ms) weight m.
  Proof.
    elim: ms => [|m ms IH] h; first by rewrite !big_nil trmx0.
    inversion h; subst. by rewrite !big_cons linearD /= weight_sym // IH.
  Qed.
  Lemma quadDl (A B : 'M[F]_n) x : quad (A + B) x = quad A x + quad B x.
  Proof. by rewrite !quadE mulmxDl dotDr. Qed.

  Lemma sum_quad ms x : List.Forall symmetric ms ->
    \sum_(m <- ms) quad (weight m) (x - mean m) =
    quad (\sum_(m <- ms) weight m) x - (dot x (\sum_(m <- ms) (weight m *m mean m))) *+ 2
    + \sum_(m <- ms) quad (weight m) (mean m).
  Proof.
    elim: ms => [|m ms IH] h.
      by rewrite !big_nil quadE mul0mx !dot0 mul0rn subr0 addr0.
    inversion h; subst. rewrite !big_cons IH // (quad_sub _ _ (weight_sym _)) // quadDl dotDr mulrnDl opprD.
    by rewrite [LHS]addrACA; congr (_ + _); rewrite [LHS]addrACA.
  Qed.

  Lemma average_quad ms x : List.Forall symmetric ms -> \sum_(m <- ms) weight m \in unitmx ->
    \sum_(m <- ms) quad (weight m) (x - mean m) =
      quad (\sum_(m <- ms) weight m) (x - weighted_mean ms)
      + (\sum_(m <- ms) quad (weight m) (mean m) - quad (\sum_(m <- ms) weight m) (weighted_mean ms)).
  Proof.
    move=> hs hu; rewrite (quad_sub _ _ (sum_sym hs)) (sum_quad _ hs).
    have -> : (\sum_(m <- ms) weight m) *m weighted_mean ms = \sum_(m <- ms) (weight m *m mean m).
      by rewrite /weighted_mean /weighted_covariance mulmxA mulmxV // mul1mx.
    by rewrite [_ - quad _ _]addrC addrA addrK.
  Qed.

  (** infinite variance as a limit: for a finite variance [t] of the missing observables the
      inverse is [weight m] plus [1/t] on their diagonal *)
  Lemma weight_limit m (t : F) : t != 0 -> masked 1 m \in unitmx ->
    invmx (masked t m) = weight m + \matrix_(i, j) (if (i == j) && ~~ has m i then t^-1 else 0).
  Proof.
    move=> t0 hu.
    pose E : 'M[F]_n := \matrix_(i, j) (if (i == j) && ~~ has m i then t^-1 else 0).
    (* the inverse of [masked 1 m] is block diagonal *)
    pose Q : 'M[F]_n := \matrix_(i, j) ((i == j) && ~~ has m i)%:R.
    have hQ v : Q *m masked v m = v *: Q.
      apply/matrixP=> i j; rewrite !mxE (bigD1 i) //= big1 ?addr0; last first.
        by move=> k ki; rewrite !mxE eq_sym (negPf ki) mul0r.
      rewrite !mxE eqxx /=; case: (has m i) => /=; first by rewrite mul0r andbF mulr0.
      by rewrite mul1r andbT; case: (i == j); rewrite ?mulr1 ?mulr0.
    have hQ' v : masked v m *m Q = v *: Q.
      apply/matrixP=> i j; rewrite !mxE (bigD1 j) //= big1 ?addr0; last first.
        by move=> k ki; rewrite !mxE (negPf ki) mulr0.
      rewrite !mxE eqxx /=; case hj: (has m j) => /=.
        by rewrite mulr0; case: eqP => [->|] /=; rewrite ?hj ?mulr0.
      rewrite andbF mulr1; case: eqP => [->|] /=; by rewrite ?hj ?mulr1 ?mulr0.
    have hi : Q *m invmx (masked 1 m) = Q.
      by rewrite -[RHS](mulmxK hu) hQ scale1r.
    have hi' : invmx (masked 1 m) *m Q = Q.
      by rewrite -[RHS](mulKmx hu) hQ' scale1r.
    have hrow i j : ~~ has m i -> invmx (masked 1 m) i j = (i == j)%:R.
      move=> hm; have := congr1 (fun A : 'M[F]_n => A i j) hi.
      rewrite !mxE (bigD1 i) //= big1 ?addr0; last first.
        by move=> k ki; rewrite !mxE eq_sym (negPf ki) mul0r.
      by rewrite !mxE eqxx hm mul1r andbT.
    have hcol i j : ~~ has m j -> invmx (masked 1 m) i j = (i == j)%:R.
      move=> hm; have := congr1 (fun A : 'M[F]_n => A i j) hi'.
      rewrite !mxE (bigD1 j) //= big1 ?addr0; last first.
        by move=> k ki; rewrite !mxE (negPf ki) mulr0.
      rewrite !mxE eqxx hm mulr1 => ->; by case: eqP => [->|] //=; rewrite hm.
    have hdec : invmx (masked 1 m) = weight m + Q.
      apply/matrixP=> i j; rewrite !mxE.
      case hi1: (has m i) => /=; last first.
        by rewrite hrow ?hi1 // add0r andbT.
      case hj: (has m j) => /=; first by rewrite andbF addr0.
      by rewrite hcol ?hj // add0r andbF; case: eqP => // e; rewrite -e hi1 in hj.
    have hmt : masked t m = masked 1 m + (t - 1) *: Q.
      apply/matrixP=> i j; rewrite !mxE.
      case hi1: (has m i) => /=; last first.
        by case: eqP => _ /=; [rewrite mulr1 addrC subrK|rewrite mulr0 addr0].
      case hj: (has m j) => /=; first by rewrite andbF mulr0 addr0.
      by rewrite andbF mulr0 addr0; case: eqP => // e; rewrite -e hi1 in hj.
    have hE : E = t^-1 *: Q.
      apply/matrixP=> i j; rewrite !mxE; by case: ifP; rewrite ?mulr1 ?mulr0.
    have hQQ : Q *m Q = Q.
      apply/matrixP=> i j; rewrite !mxE (bigD1 i) //= big1 ?addr0; last first.
        by move=> k ki; rewrite !mxE eq_sym (negPf ki) mul0r.
      by rewrite !mxE eqxx; case: (has m i); rewrite /= ?mul0r ?andbF ?mul1r ?andbT.
    have hWQ : weight m *m Q = 0.
      have := hi'; rewrite hdec mulmxDl hQQ => /eqP; rewrite -subr_eq0 addrK => /eqP //.
    have hprod : (weight m + E) *m masked t m = 1%:M.
      rewrite hmt mulmxDr -scalemxAr mulmxDl.
      have -> : weight m *m masked 1 m = 1%:M - Q.
        rewrite -(mulVmx hu) hdec mulmxDl hQ scale1r. by rewrite addrK.
      rewrite hE -scalemxAl hQ scale1r mulmxDl hWQ add0r -scalemxAl hQQ.
      rewrite scalerBl scale1r scalerA mulfV // scale1r.
      by rewrite addrA [_ + Q]addrAC addrNK addrK.
    have hU : masked t m \in unitmx by case/mulmx1_unit: hprod.
    by rewrite -[LHS]mul1mx -hprod mulmxK.
  Qed.

  Lemma masked_all v m : (forall i, has m i) -> masked v m = cov m.
  Proof. by move=> h; apply/matrixP=> i j; rewrite !mxE !h. Qed.
  Lemma weight_all m : (forall i, has m i) -> weight m = invmx (cov m).
  Proof. by move=> h; apply/matrixP=> i j; rewrite !mxE !h masked_all. Qed.
  Lemma invmx_unit (A : 'M[F]_n) : A \in unitmx -> invmx A \in unitmx.
  Proof. by rewrite unitmx_inv. Qed.

  Lemma compute_quad ms : List.Forall symmetric ms -> \sum_(m <- ms) weight m \in unitmx ->
    (forall m, ms = [:: m] -> forall i, has m i) ->
    (compute ms).2 \in unitmx /\
    exists const, forall x,
      \sum_(m <- ms) quad (weight m) (x - mean m) = quad (invmx (compute ms).2) (x - (compute ms).1) + const.
  Proof.
    move=> hs hu h1.
    suff [e1 e2] : (compute ms).2 = weighted_covariance ms /\ (compute ms).1 = weighted_mean ms.
      rewrite e1 e2; split; first by rewrite unitmx_inv.
      eexists => x; rewrite (average_quad x hs hu) /weighted_covariance invmxK; reflexivity.
    case: ms hs hu h1 => [|m [|m' ms]] //= hs hu h1.
    have hm := h1 m erefl. rewrite big_seq1 weight_all // unitmx_inv in hu.
    rewrite /weighted_mean /weighted_covariance !big_seq1 weight_all // invmxK masked_all //.
    by split=> //; rewrite mulKVmx.
  Qed.

  Lemma sum_perm (V : zmodType) (f : meas F n -> V) ms ms' : Permutation.Permutation ms ms' ->
    \sum_(m <- ms) f m = \sum_(m <- ms') f m.
  Proof.
    elim=> [|m l l' _ IH|m m' l|l l' l'' _ IH _ IH'] //.
    - by rewrite !big_cons IH.
    - by rewrite !big_cons addrCA.
    - by rewrite IH.
  Qed.
  Lemma compute_perm ms ms' : Permutation.Permutation ms ms' -> compute ms = compute ms'.
  Proof.
    move=> hp; have e : (weighted_mean ms, weighted_covariance ms) = (weighted_mean ms', weighted_covariance ms').
      by rewrite /weighted_mean /weighted_covariance !(sum_perm _ hp).
    have hl := Permutation.Permutation_length hp.
    case: ms hp e hl => [|m [|m' ms]] hp e; case: ms' hp e => [|m1 [|m1' ms']] hp e //= _.
    by rewrite (Permutation.Permutation_length_1 hp).
  Qed.

  (** [weight] only involves the observables the measurement has *)
  Lemma weight_local m x y : (forall i, has m i -> x i 0 = y i 0) -> quad (weight m) x = quad (weight m) y.
  Proof.
    move=> h; rewrite !quadE /dot !mxE; apply: eq_bigr => i _; rewrite !mxE.
    case hi: (has m i); last first.
      rewrite big1 ?mulr0 ?big1 ?mulr0 // => j _; by rewrite !mxE hi mul0r.
    rewrite h //; congr (_ * _); apply: eq_bigr => j _; rewrite !mxE hi /=.
    by case hj: (has m j); rewrite ?mul0r // h.
  Qed.
End Average.

Section Scalar.
  Variable F : fieldType.
  Lemma compute1_quad (ms : seq (F * F)) : \sum_(m <- ms) m.2^-1 != 0 -> 
    exists const, forall x, \sum_(m <- ms) (x - m.1) ^+ 2 / m.2 = (x - (compute1 ms).1) ^+ 2 / (compute1 ms).2 + const.
  Proof.
    move=> hw.
    have hsum x : \sum_(m <- ms) (x - m.1) ^+ 2 / m.2 =
        x ^+ 2 * (\sum_(m <- ms) m.2^-1) - (x * \sum_(m <- ms) (m.2^-1 * m.1)) *+ 2 + \sum_(m <- ms) m.1 ^+ 2 / m.2.
      elim: (ms) => [|m l IH]; first by rewrite !big_nil !mulr0 mul0rn subr0 addr0.
      rewrite !big_cons IH sqrrB !mulrDl mulNr !mulrDr mulrnDl opprD.
      have -> : x * m.1 *+ 2 / m.2 = x * (m.2^-1 * m.1) *+ 2.
        by rewrite mulrnAl mulrA [in RHS]mulrAC.
      by rewrite [LHS]addrACA; congr (_ + _); rewrite [LHS]addrACA.
    suff [e1 e2] : (compute1 ms).2 = (\sum_(m <- ms) m.2^-1)^-1 /\
                   (compute1 ms).1 = (\sum_(m <- ms) m.2^-1)^-1 * \sum_(m <- ms) (m.2^-1 * m.1).
      exists (\sum_(m <- ms) m.1 ^+ 2 / m.2 - (compute1 ms).1 ^+ 2 * (\sum_(m <- ms) m.2^-1)) => x.
      rewrite hsum e1 invrK sqrrB !mulrDl mulNr.
      have -> : x * (compute1 ms).1 *+ 2 * (\sum_(m <- ms) m.2^-1) = (x * (\sum_(m <- ms) (m.2^-1 * m.1))) *+ 2.
        by rewrite e2 mulrnAl -mulrA [_^-1 * _ * _]mulrAC mulVf // mul1r.
      by rewrite [_ - (compute1 ms).1 ^+ 2 * _]addrC addrA addrK.
    case: (ms) hw => [|m [|m' l]] //= hw.
    rewrite !big_seq1 invrK mulrA divff ?mul1r //.
    by rewrite big_seq1 invr_eq0 in hw.
  Qed.
End Scalar.
