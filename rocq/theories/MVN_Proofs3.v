From Coq Require Import Reals ZArith Lra Lia.
From Coq Require List.
From Verif Require Base.
From mathcomp Require Import all_ssreflect all_algebra.
From Verif Require Import RealField.
From Verif Require Average_Model Average_Proofs.
From Verif Require Import MVN_Model MVN_Spec MVN_Proofs MVN_Proofs2.
Set Implicit Arguments.
Unset Strict Implicit.
Unset Printing Implicit Defensive.
Import GRing.Theory.
Local Open Scope ring_scope.

Lemma col_seq m (v : 'cV[R]_m) : \col_i nth 0 [seq v i 0 | i <- enum 'I_m] i = v.
Proof. apply/colP => i. rewrite mxE (nth_map i) ?size_enum_ord //. by rewrite nth_ord_enum. Qed.

Lemma has_In (ex : seq Z) z : has (Z.eqb z) ex <-> List.In z ex.
Proof.
  elim: ex => //= a l [IH1 IH2]; split; first by move=> /orP [/Z.eqb_spec ->|/IH1]; auto.
  move=> [->|/IH2 h]; first by rewrite Z.eqb_refl. by rewrite h orbT.
Qed.
Section Reduce.
  Variable eig : forall n, 'M[R]_n -> bool.
  Hypothesis eigP : forall n (a : 'M[R]_n), a^T = a -> eig a <-> posdef a.
  Let eigT k (a : 'M[R]_k) : posdef a -> eig a.
  Proof. by move=> h; apply/eigP => //; case: h. Qed.

  Lemma reduce_unfold n (d : mvn n) ex : ex <> [::] -> all (in_range n) ex -> reduce_dimension (@eig) d ex =
       if size (kept n ex) == 1%N then normal_init (\sum_i delete_vec ex (mu d) i 0) (sqrt (\sum_i delete_mx ex (cov d) i i))
       else Base.bind (init (@eig) (delete_vec ex (mu d)) (Some (delete_mx ex (cov d))) None NoCorrelation) (fun d => Ok (Multi d)).
  Proof. move=> hne hr. rewrite /reduce_dimension hr /=. by case: ex hne {hr}. Qed.
  Lemma reduce_spec n (d : mvn n) ex m (f : 'I_m -> 'I_n) : posdef (cov d) -> ex <> [::] -> all (in_range n) ex -> remaining ex f ->
    (m = 1%N -> forall i, reduce_dimension (@eig) d ex = Ok (Uni (mu d (f i) 0) (sqrt (cov d (f i) (f i))))) /\
    (m <> 1%N -> exists d' : mvn m, reduce_dimension (@eig) d ex = Ok (Multi d') /\
       mu d' = (\col_i mu d (f i) 0) /\ cov d' = (\matrix_(i, j) cov d (f i) (f j))).
  Proof.
    move=> hs hne hr rf. have [em ef] := remaining_unique rf (kept_remaining n ex). subst m.
    have ev : delete_vec ex (mu d) = \col_i mu d (f i) 0 by apply/colP => i; rewrite !mxE (ef i i).
    have es : delete_mx ex (cov d) = \matrix_(i, j) cov d (f i) (f j) by apply/matrixP => i j; rewrite !mxE (ef i i) // (ef j j).
    rewrite reduce_unfold //.
    rewrite ev es. have hp : posdef (\matrix_(i, j) cov d (f i) (f j)) by rewrite -es; exact: delete_posdef.
    split.
    - move=> e1 i. have e1' : size (kept n ex) == 1%N by apply/eqP. rewrite {1}e1'.
      have one (g : 'I_(size (kept n ex)) -> R) : \sum_j g j = g i.
      { rewrite (bigD1 i) //= big1 ?addr0 // => k /negP []. apply/eqP/val_inj.
        have z (a : 'I_(size (kept n ex))) : val a = 0%N.
        { have h1 : (val a < 1)%N by apply: (leq_trans (ltn_ord a)); rewrite (eqP e1'). by move: h1; rewrite ltnS leqn0 => /eqP. }
        by rewrite !z. }
      rewrite !one !mxE /normal_init. have -> // : pos (sqrt (cov d (f i) (f i))).
      apply/posP. apply: sqrt_lt_R0. exact: posdef_diag.
    - move=> /eqP/negbTE ->. rewrite init_posdef //. eexists. split; first by []. by [].
  Qed.
  Lemma logpdf_ex n (d : mvn n) ex m (f : 'I_m -> 'I_n) p (x : seq R) :
    posdef (cov d) -> all (in_range n) ex -> remaining ex f -> size x = m ->
    p *m (\matrix_(i, j) cov d (f i) (f j)) = 1%:M ->
    logpdf_exclude (@eig) d x (Some ex) =
      Ok (log_density (\col_i mu d (f i) 0) (\matrix_(i, j) cov d (f i) (f j)) p (\col_i nth 0 x i)).
  Proof.
    move=> hs hr rf hx hp.
    have hi : injective f by case: rf => mono _ i j e; case: (ltngtP i j) => [/mono|/mono|/val_inj //]; rewrite e ltnn.
    have hsub := select_posdef hi hs.
    rewrite /logpdf_exclude. case: ex hr rf => [|e ex] hr rf.
    - (* nothing excluded *)
      have r0 : remaining [::] (fun i : 'I_n => i) by split=> // k; split=> // _; [move=> [[]|[]]|exists k].
      have [em ef] := remaining_unique rf r0. move: hx; subst m => hx. rewrite /= hx eqxx.
      have E1 : (\col_i mu d (f i) 0) = mu d by apply/colP => i; rewrite mxE (ef i i).
      have E2 : (\matrix_(i, j) cov d (f i) (f j)) = cov d by apply/matrixP => i j; rewrite mxE (ef i i) // (ef j j).
      rewrite E2 in hp *. by rewrite E1 (logpdf_density _ hs hp).
    - have [h1 h2] := reduce_spec hs (ex := e :: ex) ltac:(by []) hr rf.
      case: (eqVneq m 1%N) => [e1|/eqP ne].
      + rewrite (h1 e1 (cast_ord (esym e1) 0)) /=. move: hx; subst m => hx.
        case: x hx => [|x0 [|]] //= hx.
        have e0 : cast_ord (esym (erefl 1%N)) 0 = 0 :> 'I_1 by apply/val_inj.
        rewrite e0. congr Ok. rewrite -density1; [by rewrite !mxE| |exact: hp]. by rewrite mxE; apply: posdef_diag.
      + have [d' [E [Em Ec]]] := h2 ne. rewrite E /= hx eqxx. congr Ok.
        rewrite (logpdf_density (p := p)) ?Em ?Ec //.
  Qed.
  Lemma central_ex n (d : mvn n) ex m (f : 'I_m -> 'I_n) : (forall e, List.In e ex -> Z.leb 0 e) -> remaining ex f ->
    central_exclude d (Some ex) = [seq mu d (f i) 0 | i <- enum 'I_m].
  Proof.
    move=> hex rf. have [em ef] := remaining_unique rf (kept_remaining n ex). subst m.
    have -> : central_exclude d (Some ex) = [seq mu d i 0 | i <- kept n ex].
    { rewrite /central_exclude /kept. congr map. apply: eq_filter => i. congr negb.
      apply/idP/idP.
      - move=> h. apply/in_exclude. left. by apply/has_In.
      - move=> /in_exclude [h|h]; last first.
        { have h' := hex _ h. move/Z.leb_spec0: h' => h'. have hi := ltn_ord i. move/ltP: hi => hi.
          have : Z.lt (Z.sub (Z.of_nat i) (Z.of_nat n)) 0 by lia. lia. }
        by apply/has_In. }
    have e : [seq f i | i <- enum 'I_(size (kept n ex))] = kept n ex.
    { have -> : [seq f i | i <- enum 'I_(size (kept n ex))] = [seq tnth (in_tuple (kept n ex)) i | i <- enum 'I_(size (kept n ex))].
      { apply: eq_map => i. exact: ef. }
      exact: map_tnth_enum. }
    by rewrite -{1}e -map_comp.
  Qed.
  Lemma has_inverse n (s : 'M[R]_n) : posdef s -> invmx s *m s = 1%:M.
  Proof. by move=> h; rewrite mulVmx // posdef_unit. Qed.

  (** *** combination *)
  Lemma sum_posdef n (ds : seq 'M[R]_n) : ds <> [::] -> List.Forall (fun s => posdef s) ds -> posdef (\sum_(s <- ds) s).
  Proof.
    case: ds => [//|s0 ds] _. elim: ds s0 => [|s ds IH] s0 h; inversion h; subst; first by rewrite big_seq1.
    rewrite big_cons. apply: posdef_sum => //. exact: IH.
  Qed.
  Definition as_meas n (d : mvn n) : Average_Model.meas R_fieldType n := Average_Model.Meas (mu d) (cov d) xpredT.
  Lemma combine_spec n (ds : seq (mvn n)) : ds <> [::] -> List.Forall (fun d => posdef (cov d)) ds ->
    exists d, combine_gaussians (@eig) ds = Ok d /\ posdef (cov d) /\
      exists K, forall x, \sum_(d0 <- ds) logpdf d0 x = (logpdf d x + K)%coqR.
  Proof.
    move=> hne hs.
    have hsum : posdef (\sum_(d <- ds) invmx (cov d)).
    { have -> : \sum_(d <- ds) invmx (cov d) = \sum_(s <- [seq invmx (cov d) | d <- ds]) s by rewrite big_map.
      apply: sum_posdef; first by case: (ds) hne. elim: (ds) hs => [|d l IH] h; constructor.
      - inversion h; subst. apply: (posdef_inv (s := cov d)) => //. exact: has_inverse.
      - inversion h; subst. exact: IH. }
    have hw : posdef (invmx (\sum_(d <- ds) invmx (cov d))) by apply: (posdef_inv hsum); exact: has_inverse.
    rewrite /combine_gaussians init_posdef //. eexists. split; first by []. split; first by [].
    set ms := [seq as_meas d | d <- ds].
    have hms : List.Forall (fun m => (Average_Model.cov m)^T = Average_Model.cov m) ms.
    { rewrite /ms. elim: (ds) hs => [|d l IH] h; constructor; inversion h; subst; [by case: H1|exact: IH]. }
    have ew : \sum_(m <- ms) Average_Model.weight m = \sum_(d <- ds) invmx (cov d).
    { rewrite big_map. apply: eq_bigr => d _. by rewrite Average_Proofs.weight_all. }
    have hu : \sum_(m <- ms) Average_Model.weight m \in unitmx by rewrite ew; exact: posdef_unit.
    have em : Average_Model.weighted_mean ms = invmx (\sum_(d <- ds) invmx (cov d)) *m \sum_(d <- ds) (invmx (cov d) *m mu d).
    { rewrite /Average_Model.weighted_mean /Average_Model.weighted_covariance ew. congr (_ *m _). rewrite big_map. apply: eq_bigr => d _. by rewrite Average_Proofs.weight_all. }
    have Hq x := Average_Proofs.average_quad x hms hu.
    set c2 := (\sum_(m <- ms) Average_Proofs.quad (Average_Model.weight m) (Average_Model.mean m) -
        Average_Proofs.quad (\sum_(m <- ms) Average_Model.weight m) (Average_Model.weighted_mean ms)) in Hq.
    pose nd (d : mvn n) : R := (- (INR n * ln (2 * PI) + ln (\det (cov d))) / 2)%coqR.
    set dd := Mvn _ _ _ _. exists (\sum_(d <- ds) nd d - nd dd - c2 / 2)%coqR => x.
    have e1 : \sum_(d0 <- ds) logpdf d0 x = (\sum_(d0 <- ds) nd d0 - (\sum_(d0 <- ds) Average_Proofs.quad (invmx (cov d0)) (x - mu d0)) / 2)%coqR.
    { elim: (ds) hs => [|d l IH] h; first by rewrite !big_nil; have -> : GRing.zero R_zmodType = 0%coqR by []; lra.
      inversion h; subst. rewrite !big_cons IH // (logpdf_density _ (p := invmx (cov d))) //; last exact: has_inverse.
      rewrite /log_density /nd /Average_Proofs.quad. set q := (_ *m _) _ _. set s1 := \sum_(_ <- _) _. set s2 := \sum_(_ <- _) _.
      have ar (a u s t : R) : (- (a + u) / 2 + (s - t / 2) = (- a / 2 + s) - (u + t) / 2)%coqR by lra. exact: ar. }
    rewrite e1. have e2 : \sum_(d0 <- ds) Average_Proofs.quad (invmx (cov d0)) (x - mu d0) =
       (Average_Proofs.quad (\sum_(d <- ds) invmx (cov d)) (x - mu dd) + c2)%coqR.
    { have := Hq x. rewrite {1}/ms big_map ew em => h. rewrite -[RHS]h. apply: eq_bigr => d _. by rewrite Average_Proofs.weight_all. }
    rewrite e2 (logpdf_density (d := dd) (p := \sum_(d <- ds) invmx (cov d))) //; last by rewrite /= mulmxV // posdef_unit.
    rewrite /log_density /nd /Average_Proofs.quad. set q := (_ *m _) _ _. set s1 := \sum_(_ <- _) _.
    have ar (a u s c : R) : (s - (u + c) / 2 = - (a + u) / 2 + (s - - a / 2 - c / 2))%coqR by lra. exact: ar.
  Qed.
End Reduce.
