From Coq Require Import Reals ZArith Lra Lia ClassicalEpsilon.
From Coq Require List.
From Verif Require Base.
From mathcomp Require Import all_ssreflect all_algebra.
From Verif Require Import RealField.
From Verif Require Import MVN_Model MVN_Spec MVN_Proofs MVN_Proofs2 MVN_Proofs3.
Set Implicit Arguments.
Unset Strict Implicit.
Unset Printing Implicit Defensive.
Import GRing.Theory.
Local Open Scope ring_scope.

Lemma unscale (a b c : R) : a != 0 -> b != 0 -> c = a * (c / (a * b)) * b.
Proof. by move=> ha hb; rewrite mulrAC [a * b * _]mulrC divfK // mulf_eq0 negb_or ha. Qed.
Lemma scaled_back n (s : 'M[R]_n) : (forall i, Rlt 0 (s i i)) -> posdef (scaled s) -> posdef s.
Proof.
  move=> hd hp. pose e := err s. have he i : Rlt 0 (e i 0) by rewrite mxE; apply: sqrt_lt_R0.
  pose dm : 'M[R]_n := diag_mx (\row_i e i 0).
  have ud : dm \in unitmx.
  { rewrite unitmxE det_diag unitfE. apply/prodf_neq0 => i _. rewrite mxE. exact: Rlt_ne0. }
  have -> : s = dm^T *m scaled s *m dm.
  { rewrite tr_diag_mx. apply/matrixP => i j. rewrite [RHS]mxE (bigD1 j) //= [X in _ + X]big1 ?addr0; last first.
    { move=> k hk. rewrite [dm k j]mxE (negbTE hk) mulr0n mulr0 //. }
    rewrite [dm j j]mxE eqxx mulr1n [(_ *m _) i j]mxE (bigD1 i) //= [X in _ + X]big1 ?addr0; last first.
    { move=> k hk. rewrite [dm i k]mxE eq_sym (negbTE hk) mulr0n mul0r //. }
    rewrite [dm i i]mxE eqxx mulr1n [scaled s i j]mxE [(\row__ _) _ _]mxE [(\row__ _) _ _]mxE -/e.
    apply: unscale; exact: Rlt_ne0 (he _). }
  apply: quad_inj => //. exact: unit_inj.
Qed.
Lemma scaled_sym n (s : 'M[R]_n) : s^T = s -> (scaled s)^T = scaled s.
Proof. move=> h. apply/matrixP => i j. rewrite !mxE. by rewrite -{1}h mxE [_ * sqrt (s i i)]mulrC. Qed.

Section Constructor.
  Variable eig : forall n, 'M[R]_n -> bool.
  Hypothesis eigP : forall n (a : 'M[R]_n), a^T = a -> eig a <-> posdef a.
  Lemma check_spec n (d : mvn n) : (cov d)^T = cov d ->
    (posdef (cov d) -> check (@eig) d = Ok d) /\
    (~ posdef (cov d) -> (exists i, ~ Rlt 0 (cov d i i)) /\ check (@eig) d = Err Base.ValueError \/
       (forall i, Rlt 0 (cov d i i)) /\ check (@eig) d = Err Base.AssertionError).
  Proof.
    move=> hs. have hs' := scaled_sym hs. split.
    - move=> hp. apply/check_ok. split=> //. split; first by move=> i; exact: posdef_diag. apply/eigP => //. exact: scaled_posdef.
    - move=> hp. rewrite /check. case: forallP => h /=.
      + right. split; first by move=> i; apply/posP; exact: h.
        have -> // : eig (scaled (cov d)) = false.
        apply/negbTE/negP => /(eigP hs') hq. apply: hp. apply: scaled_back => // i. apply/posP. exact: h.
      + left. split=> //. apply: NNPP => hn. apply: h => i. apply/posP. apply: NNPP => hi. apply: hn. by exists i.
  Qed.
  Lemma complete_triangle n (s : 'M[R]_n) : (forall i j : 'I_n, (j < i)%N -> s i j = 0) ->
    (exists i j : 'I_n, (i < j)%N /\ Rlt (1 / 100000000) (Rabs (s i j))) ->
    complete s = \matrix_(i, j) if (i <= j)%N then s i j else s j i.
  Proof.
    move=> ht [i [j [hij hs]]]. rewrite /complete. have -> : allclose s = false.
    { apply/negbTE/negP => /forallP /(_ i) /forallP /(_ j) /closeP. rewrite (ht j i) //.
      have -> : GRing.zero R_ringType = 0%coqR by []. rewrite Rminus_0_r Rabs_R0. lra. }
    apply/matrixP => a b. rewrite !mxE. case: (ltngtP a b) => h.
    - rewrite (ht b a) // addr0. have -> : (a == b) = false by apply/negbTE/eqP => e; rewrite e ltnn in h. by rewrite subr0.
    - rewrite (ht a b) // add0r. have -> : (a == b) = false by apply/negbTE/eqP => e; rewrite e ltnn in h. by rewrite subr0.
    - have e : a = b by apply/val_inj. subst b. by rewrite eqxx addrK.
  Qed.
  Lemma close_small n (s : 'M[R]_n) : (forall i j : 'I_n, i <> j -> Rle (Rabs (s i j)) (1 / 200000000)) -> complete s = s.
  Proof.
    move=> h. rewrite /complete. suff -> : allclose s by []. apply/forallP => i. apply/forallP => j. apply/closeP.
    case: (eqVneq i j) => [->|/eqP hne].
    - rewrite Rminus_eq_0 Rabs_R0. have := Rabs_pos (s j j). lra.
    - have h1 := h i j hne. have h2 : Rle (Rabs (s j i)) (1 / 200000000) by apply: h => e; apply: hne.
      have := Rabs_triang (s i j) (- s j i)%coqR. rewrite Rabs_Ropp. have := Rabs_pos (s j i). rewrite /Rminus. lra.
  Qed.
End Constructor.

(** an instance of the test of the eigenvalues *)
Definition triangular_positive n (a : 'M[R]_n) : Prop := (forall i j : 'I_n, (j < i)%N -> a i j = 0) /\ (forall i, Rlt 0 (a i i)).
Definition decide n (a : 'M[R]_n) : bool := if excluded_middle_informative (posdef a \/ triangular_positive a) then true else false.
Lemma sum_nonneg (I : Type) (r : seq I) (f : I -> R) : (forall i, Rle 0 (f i)) -> Rle 0 (\sum_(i <- r) f i).
Proof.
  move=> h. elim: r => [|a r IH]; first by rewrite big_nil; apply: Rle_refl. rewrite big_cons. by apply: Rplus_le_le_0_compat.
Qed.
Lemma diagonal_posdef n (a : 'M[R]_n) : (forall i j, i <> j -> a i j = 0) -> (forall i, Rlt 0 (a i i)) -> posdef a.
Proof.
  move=> h0 hp. split.
  - apply/matrixP => i j. rewrite mxE. case: (eqVneq i j) => [-> //|/eqP h]. by rewrite !h0 // => e; apply: h.
  - move=> v hv.
    have e : (v^T *m a *m v) 0 0 = \sum_i (a i i * (v i 0 * v i 0)).
    { rewrite mxE. apply: eq_bigr => i _. rewrite mxE (bigD1 i) //= big1 ?addr0; last by move=> k /eqP hk; rewrite h0 ?mulr0.
      rewrite mxE. by rewrite [v i 0 * _]mulrC mulrA. }
    rewrite e. have [i hi] : exists i, v i 0 <> 0.
    { apply: NNPP => hn. apply: hv. apply/colP => i. rewrite mxE. apply: NNPP => h. apply: hn. by exists i. }
    have nn j : Rle 0 (a j j * (v j 0 * v j 0)).
    { apply: Rmult_le_pos; first by left. exact: Rle_0_sqr. }
    rewrite (bigD1 i) //=. apply: Rplus_lt_le_0_compat.
    + apply: Rmult_lt_0_compat => //. by apply: Rsqr_pos_lt.
    + rewrite big_mkcond. apply: sum_nonneg => j. case: ifP => _ //. exact: Rle_refl.
Qed.
Lemma decideP n (a : 'M[R]_n) : a^T = a -> decide a <-> posdef a.
Proof.
  move=> hs. rewrite /decide. case: excluded_middle_informative => [[hp|[h1 h2]]|h]; split=> //.
  - move=> _. apply: diagonal_posdef => // i j hij. case: (ltngtP i j) => h; [by rewrite -hs mxE h1|exact: h1|by case: hij; apply/val_inj].
  - move=> hp. by case: h; left.
Qed.
Lemma decide_triangular n (a : 'M[R]_n) : triangular_positive a -> decide a.
Proof. by move=> h; rewrite /decide; case: excluded_middle_informative => // [[]]; right. Qed.
