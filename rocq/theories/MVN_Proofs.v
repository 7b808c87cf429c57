From Coq Require Import Reals ZArith Lra.
From Verif Require Base.
From mathcomp Require Import all_ssreflect all_algebra.
From Verif Require Import RealField MVN_Model MVN_Spec.
Set Implicit Arguments.
Unset Strict Implicit.
Unset Printing Implicit Defensive.
Import GRing.Theory.
Local Open Scope ring_scope.

Lemma quad_inj n m (s : 'M[R]_n) (a : 'M[R]_(n, m)) :
  posdef s -> (forall v : 'cV_m, a *m v = 0 -> v = 0) -> posdef (a^T *m s *m a).
Proof.
  move=> [hs hp] ha; split; first by rewrite !trmx_mul trmxK hs mulmxA.
  move=> v hv. have -> : v^T *m (a^T *m s *m a) *m v = (a *m v)^T *m s *m (a *m v) by rewrite trmx_mul !mulmxA.
  by apply: hp => h; apply: hv; apply: ha.
Qed.
Lemma posdef_unit n (s : 'M[R]_n) : posdef s -> s \in unitmx.
Proof.
  move=> [hs hp]. rewrite unitmxE unitfE. apply/negP => /eqP h0.
  have /det0P [v hv e] : \det s == 0 by rewrite h0.
  have := hp v^T. rewrite trmxK e mul0mx mxE => h. have : Rlt 0 0; last by lra.
  by apply: h => h'; rewrite -[v]trmxK h' trmx0 eqxx in hv.
Qed.
Lemma unit_inj n (a : 'M[R]_n) : a \in unitmx -> forall v : 'cV_n, a *m v = 0 -> v = 0.
Proof. by move=> h v e; rewrite -[v]mul1mx -(mulVmx h) -mulmxA e mulmx0. Qed.

Lemma posdef_block n (a : R) (b : 'cV[R]_n) (c : 'M[R]_n) : posdef (block_mx (a%:M : 'M_1) b^T b c) ->
  Rlt 0 a /\ posdef (c - a^-1 *: (b *m b^T)) /\ \det (block_mx (a%:M : 'M_1) b^T b c) = a * \det (c - a^-1 *: (b *m b^T)).
Proof.
  move=> h.
  have ha : Rlt 0 a.
  { have [hs hp] := h. have := hp (col_mx (1%:M : 'M_1) 0). rewrite tr_col_mx mul_row_block mul_row_col.
    rewrite trmx1 trmx0 !mul1mx !mul0mx !addr0 mulmx0 addr0 mulmx1 mxE eqxx mulr1n. apply => /colP/(_ (lshift _ 0)).
    rewrite col_mxEu !mxE eqxx /= => /eqP. by rewrite oner_eq0. }
  have ha' : a != 0 by apply/eqP => e; rewrite e in ha; apply: Rlt_irrefl ha.
  set l := block_mx (1%:M : 'M_1) 0 (- (a^-1 *: b)) (1%:M : 'M_n).
  have dl : \det l = 1 by rewrite det_lblock !det1 mulr1.
  have e : l *m block_mx (a%:M : 'M_1) b^T b c *m l^T = block_mx (a%:M : 'M_1) 0 0 (c - a^-1 *: (b *m b^T)).
  { rewrite /l tr_block_mx !mulmx_block !trmx1 !trmx0 !mul1mx !mul0mx !mulmx1 !mulmx0 !addr0 ?add0r.
    rewrite mul_mx_scalar scalerN scalerA divff // scale1r addNr !mul0mx !add0r.
    congr block_mx.
    - rewrite mul_scalar_mx linearN /= linearZ /= scalerN scalerA divff // scale1r addNr //.
    - rewrite mulNmx -scalemxAl addrC //. }
  have ul : l^T \in unitmx by rewrite unitmx_tr unitmxE dl unitr1.
  have pd := quad_inj h (unit_inj ul). rewrite trmxK e in pd.
  split=> //; split.
  - have := quad_inj pd (a := col_mx 0 1%:M). rewrite tr_col_mx trmx0 trmx1 mul_row_block mul_row_col.
    rewrite !mul0mx !mulmx0 !mul1mx !add0r mulmx1. apply => v. rewrite mul_col_mx mul0mx mul1mx -[X in _ = X]col_mx0.
    by move=> /eq_col_mx [].
  - have <- : \det (l *m block_mx (a%:M : 'M_1) b^T b c *m l^T) = \det (block_mx (a%:M : 'M_1) b^T b c).
    { by rewrite !det_mulmx det_tr dl mulr1 mul1r. }
    by rewrite e det_lblock det_scalar1.
Qed.
Lemma posdef_det n (s : 'M[R]_n) : posdef s -> Rlt 0 (\det s).
Proof.
  elim: n s => [|n IH] s h; first by rewrite det_mx00; apply: Rlt_0_1.
  pose s' : 'M[R]_(1 + n) := s.
  have e : s' = block_mx ((s' 0 0)%:M : 'M_1) (dlsubmx s')^T (dlsubmx s') (drsubmx s').
  { rewrite -[s' in LHS]submxK. congr block_mx.
    - apply/matrixP => i j. rewrite !mxE !ord1 eqxx mulr1n. by congr (s' _ _); apply/val_inj.
    - have [hs _] := h. rewrite -[s' in LHS]hs. by apply/matrixP => i j; rewrite !mxE. }
  have h' : posdef (block_mx ((s' 0 0)%:M : 'M_1) (dlsubmx s')^T (dlsubmx s') (drsubmx s')) by rewrite -e.
  have [ha [hc hd]] := posdef_block h'.
  have -> : \det s = \det s' by []. rewrite e hd. by apply: Rmult_lt_0_compat => //; apply: IH.
Qed.
Lemma posdef_diag n (s : 'M[R]_n) i : posdef s -> Rlt 0 (s i i).
Proof.
  move=> [hs hp]. have := hp (delta_mx i 0). rewrite trmx_delta -rowE -colE !mxE. apply.
  move/colP/(_ i). rewrite !mxE !eqxx /= => /eqP. by rewrite oner_eq0.
Qed.
Lemma posdef_inv n (s p : 'M[R]_n) : posdef s -> p *m s = 1%:M -> posdef p.
Proof.
  move=> h e. have us := posdef_unit h. have ep : p = invmx s by rewrite -[p]mulmx1 -(mulmxV us) mulmxA e mul1mx.
  have [hs _] := h.
  have -> : p = (invmx s)^T *m s *m invmx s by rewrite trmx_inv hs mulVmx // mul1mx ep.
  apply: quad_inj => //. apply: unit_inj. by rewrite unitmx_inv.
Qed.
Lemma posdef_sum n (a b : 'M[R]_n) : posdef a -> posdef b -> posdef (a + b).
Proof.
  move=> [sa pa] [sb pb]; split; first by rewrite linearD /= sa sb.
  move=> v hv. rewrite mulmxDr mulmxDl mxE. by apply: Rplus_lt_0_compat; [apply: pa|apply: pb].
Qed.
