From Coq Require Import Reals ZArith Lra.
From Verif Require Base.
From mathcomp Require Import all_ssreflect all_algebra.
From Verif Require Import RealField MVN_Model MVN_Spec MVN_Proofs.
Set Implicit Arguments.
Unset Strict Implicit.
Unset Printing Implicit Defensive.
Import GRing.Theory.
Local Open Scope ring_scope.

Lemma Rlt_ne0 (x : R) : Rlt 0 x -> x != 0.
Proof. by move=> h; apply/eqP => e; rewrite e in h; apply: Rlt_irrefl h. Qed.
Lemma inverse_unique n (s p : 'M[R]_n) : p *m s = 1%:M -> s \in unitmx /\ p = invmx s.
Proof.
  move=> e. have [_ us] := mulmx1_unit e.
  split=> //. by rewrite -[p]mulmx1 -(mulmxV us) mulmxA e mul1mx.
Qed.

Section Scale.
  Variables (n : nat) (s : 'M[R]_n).
  Hypothesis hs : posdef s.
  Let e := err s.
  Lemma err_pos i : Rlt 0 (e i 0).
  Proof. rewrite mxE. apply: sqrt_lt_R0. exact: posdef_diag. Qed.
  Definition dscale : 'M[R]_n := diag_mx (\row_i (e i 0)^-1).
  Lemma dscale_tr : dscale^T = dscale. Proof. exact: tr_diag_mx. Qed.
  Lemma dscale_unit : dscale \in unitmx.
  Proof.
    rewrite unitmxE det_diag unitfE. apply/prodf_neq0 => i _. rewrite mxE invr_eq0. apply: Rlt_ne0. exact: err_pos.
  Qed.
  Lemma scaledE : scaled s = dscale *m s *m dscale.
  Proof.
    apply/matrixP => i j. rewrite !mxE (bigD1 j) //= big1 ?addr0; last first.
    { move=> k hk. rewrite [dscale k j]mxE (negbTE hk) mulr0n mulr0 //. }
    rewrite [dscale j j]mxE eqxx mulr1n mxE (bigD1 i) //= big1 ?addr0; last first.
    { move=> k hk. rewrite [dscale i k]mxE eq_sym (negbTE hk) mulr0n mul0r //. }
    rewrite [dscale i i]mxE eqxx mulr1n !mxE. rewrite invfM. rewrite mulrCA mulrA //.
  Qed.
  Lemma rescaleE x : rescale x e = dscale *m x.
  Proof.
    apply/colP => i. rewrite !mxE (bigD1 i) //= big1 ?addr0; last first.
    { move=> k hk. rewrite [dscale i k]mxE eq_sym (negbTE hk) mulr0n mul0r //. }
    rewrite [dscale i i]mxE eqxx mulr1n !mxE mulrC //.
  Qed.
  Lemma scaled_posdef : posdef (scaled s).
  Proof. rewrite scaledE -{1}dscale_tr. apply: quad_inj => //. apply: unit_inj. exact: dscale_unit. Qed.
  Lemma scaled_diag i : scaled s i i = 1.
  Proof.
    rewrite mxE mxE. have h := posdef_diag i hs.
    have -> : GRing.mul (sqrt (s i i)) (sqrt (s i i)) = s i i by rewrite RmulE sqrt_sqrt //; lra.
    apply: divff. exact: Rlt_ne0.
  Qed.
  Lemma scaled_quad p x : p *m s = 1%:M ->
    (rescale x e)^T *m invmx (scaled s) *m rescale x e = x^T *m p *m x.
  Proof.
    move=> hp. have [us ->] := inverse_unique hp. have ud := dscale_unit.
    have -> : invmx (scaled s) = invmx dscale *m invmx s *m invmx dscale.
    { rewrite scaledE. have e1 : (invmx dscale *m invmx s *m invmx dscale) *m (dscale *m s *m dscale) = 1%:M.
      { rewrite -!mulmxA [invmx dscale *m (dscale *m _)]mulmxA mulVmx // mul1mx [invmx s *m _]mulmxA mulVmx // mul1mx mulVmx //. }
      by have [_ ->] := inverse_unique e1. }
    rewrite rescaleE trmx_mul dscale_tr -!mulmxA [invmx dscale *m (dscale *m _)]mulmxA mulVmx // mul1mx.
    rewrite [dscale *m (invmx dscale *m _)]mulmxA mulmxV // mul1mx //.
  Qed.
End Scale.

Lemma rescaleB n (x y e : 'cV[R]_n) : rescale x e - rescale y e = rescale (x - y) e.
Proof. by apply/colP => i; rewrite !mxE mulrBl. Qed.

Lemma density_arith (c a b q : R) : (- (1 / 2) * (c + a + q) + (a - b) / 2 = - (c + b + q) / 2)%coqR.
Proof. lra. Qed.
Lemma quad1_arith (x m i : R) : ((x + - m) * i * (x + - m) = (x - m) ^ 2 * i)%coqR.
Proof. ring. Qed.
Lemma uni_arith (x m s a b : R) : (- (x - m) ^ 2 / s / 2 - (a + b) = - (INR 1 * (2 * a) + 2 * b + (x - m) ^ 2 / s) / 2)%coqR.
Proof. have -> : INR 1 = 1%coqR by []. have -> : (- (x - m) ^ 2 / s = - ((x - m) ^ 2 / s))%coqR by rewrite /Rdiv; ring. set q := ((x - m) ^ 2 / s)%coqR. lra. Qed.
Lemma max_arith (c q : R) : Rlt 0 q -> Rlt (- (c + q) / 2)%coqR (- (c + 0) / 2)%coqR.
Proof. lra. Qed.
Lemma logpdf_density n (d : mvn n) p x : posdef (cov d) -> p *m cov d = 1%:M ->
  logpdf d x = log_density (mu d) (cov d) p x.
Proof.
  move=> hs hp. rewrite /logpdf /log_density /scipy_logpdf rescaleB (scaled_quad hs _ hp).
  have h1 := posdef_det hs. have h2 := posdef_det (scaled_posdef hs).
  rewrite !Rabs_right; [|lra|lra].
  exact: density_arith.
Qed.

Lemma density_max n (m : 'cV[R]_n) (s p : 'M[R]_n) x : posdef s -> p *m s = 1%:M ->
  x <> m -> Rlt (log_density m s p x) (log_density m s p m).
Proof.
  move=> hs hp hx. have [_ pp] := posdef_inv hs hp. rewrite /log_density subrr mulmx0 [(0 : 'M__) _ _]mxE.
  have h : Rlt 0 (((x - m)^T *m p *m (x - m)) 0 0).
  { apply: pp => e. apply: hx. by rewrite -[x](subrK m) e add0r. }
  exact: max_arith.
Qed.

(** *** the constructor *)
Section Init.
  Variable eig : forall n, 'M[R]_n -> bool.
  Arguments eig {n}.
  Lemma closeP a b : close a b <-> Rle (Rabs (a - b)) (1 / 100000000 + 1 / 100000 * Rabs b)%coqR.
  Proof. rewrite /close. by case: Rle_dec. Qed.
  Lemma posP x : pos x <-> Rlt 0 x.
  Proof. rewrite /pos. by case: Rlt_dec. Qed.
  Lemma complete_sym n (s : 'M[R]_n) : s^T = s -> complete s = s.
  Proof.
    move=> h. rewrite /complete. suff -> : allclose s by [].
    apply/forallP => i. apply/forallP => j. apply/closeP. have -> : s i j = s j i by rewrite -{1}h mxE. rewrite Rminus_eq_0 Rabs_R0. have := Rabs_pos (s j i). lra.
  Qed.
  Lemma check_ok n (d d' : mvn n) : check (@eig) d = Ok d' <-> d' = d /\ (forall i, Rlt 0 (cov d i i)) /\ eig (scaled (cov d)).
  Proof.
    rewrite /check. case: forallP => h /=.
    - case: ifP => he.
      + split; first by move=> [<-]; split=> //; split=> // i; apply/posP; exact: h.
        by move=> [-> _].
      + split=> //. by move=> [_ [_ h']].
    - split=> // [[_ [h' _]]]. case: h => i. apply/posP. exact: h'.
  Qed.
  Lemma init_posdef n (m : 'cV[R]_n) (s : 'M[R]_n) : (forall k (a : 'M[R]_k), posdef a -> eig a) -> posdef s ->
    init (@eig) m (Some s) None NoCorrelation =
      Ok (Mvn m s (\col_i sqrt (s i i)) (\matrix_(i, j) if i == j then 1 else s i j / outer (\col_i sqrt (s i i)) i j)).
  Proof.
    move=> he hs. rewrite /init complete_sym; last by case: hs.
    apply/check_ok. split=> //. split; first by move=> i; exact: posdef_diag. exact: he (scaled_posdef hs).
  Qed.

  (** *** deletion *)
  Lemma kept_sorted n ex : sorted ltn (map val (kept n ex)).
  Proof.
    rewrite /kept. apply: (subseq_sorted ltn_trans (map_subseq _ (filter_subseq _ _))). rewrite val_enum_ord. exact: iota_ltn_sorted.
  Qed.
  Lemma in_exclude n (ex : seq Z) (k : 'I_n) :
    deleted ex k <-> (List.In (Z.of_nat k) ex \/ List.In (Z.sub (Z.of_nat k) (Z.of_nat n)) ex).
  Proof.
    rewrite /deleted. elim: ex => [|a ex IH] /=; first by split=> // [[]].
    split.
    - move=> /orP [/orP [/Z.eqb_spec ->|/Z.eqb_spec ->]|/IH []]; auto.
    - move=> [[<-|h]|[->|h]]; rewrite ?Z.eqb_refl ?orbT //; apply/orP; right; apply/IH; auto.
  Qed.
  Lemma kept_remaining n ex : remaining (n := n) (m := size (kept n ex)) ex (fun i => tnth (in_tuple (kept n ex)) i).
  Proof.
    split.
    - move=> i j h. have hs := kept_sorted n ex.
      have [k0 _] : {k : 'I_n | True} by exists (tnth (in_tuple (kept n ex)) i).
      rewrite !(tnth_nth k0) /=.
      have e k : (k < size (kept n ex))%N -> val (nth k0 (kept n ex) k) = nth 0%N (map val (kept n ex)) k by move=> hk; rewrite (nth_map k0).
      rewrite !e //. apply: (sorted_ltn_nth ltn_trans 0%N hs) => //; rewrite inE size_map //.
    - move=> k. split.
      + move=> [i <-]. have := mem_tnth i (in_tuple (kept n ex)). rewrite /= {2}/kept mem_filter => /andP [h _]. move/in_exclude. by apply/negP.
      + move=> h. have hk : k \in kept n ex.
        { rewrite /kept mem_filter mem_enum andbT. apply/negP. by move/in_exclude. }
        have /tnthP [i e] : k \in in_tuple (kept n ex) by []. by exists i.
  Qed.
  (** positions in order are determined *)
  Lemma remaining_unique n m m' ex (f : 'I_m -> 'I_n) (g : 'I_m' -> 'I_n) : remaining ex f -> remaining ex g ->
    m = m' /\ forall (i : 'I_m) (j : 'I_m'), val i = val j -> f i = g j.
  Proof.
    move=> [mf rf] [mg rg].
    have inj k (h : 'I_k -> 'I_n) : (forall i j : 'I_k, (i < j)%N -> (h i < h j)%N) -> injective h.
    { move=> mh i j e. case: (ltngtP i j) => [/mh|/mh|/val_inj //]; by rewrite e ltnn. }
    have st k (h : 'I_k -> 'I_n) : (forall i j : 'I_k, (i < j)%N -> (h i < h j)%N) -> sorted ltn (map val (map h (enum 'I_k))).
    { move=> mh. rewrite -map_comp. have : sorted ltn (map val (enum 'I_k)) by rewrite val_enum_ord iota_ltn_sorted.
      elim: (enum 'I_k) => [|a [|b l] IH] //= /andP [h1 h2]. rewrite mh //=. exact: IH. }
    have e : map val (map f (enum 'I_m)) = map val (map g (enum 'I_m')).
    { apply: (irr_sorted_eq ltn_trans ltnn); [exact: st|exact: st|].
      move=> x. apply/mapP/mapP => [[y /mapP [i _ ->] ->]|[y /mapP [i _ ->] ->]].
      - have [j <-] : exists j, g j = f i by apply/rg; apply/rf; exists i. exists (g j) => //. by apply/mapP; exists j; rewrite ?mem_enum.
      - have [j <-] : exists j, f j = g i by apply/rf; apply/rg; exists i. exists (f j) => //. by apply/mapP; exists j; rewrite ?mem_enum. }
    split; first by have z k (h : 'I_k -> 'I_n) : size (map val (map h (enum 'I_k))) = k; [rewrite size_map (size_map h) size_enum_ord|rewrite -(z _ f) -(z _ g) e].
    move=> i j hij. apply/val_inj => /=.
    have e1 k (h : 'I_k -> 'I_n) (a : 'I_k) : nth 0%N (map val (map h (enum 'I_k))) a = h a.
    { rewrite -map_comp (nth_map a) ?size_enum_ord //= nth_ord_enum //. }
    by rewrite -(e1 _ f) -(e1 _ g) e hij.
  Qed.

  Definition select n m (f : 'I_m -> 'I_n) : 'M[R]_(n, m) := \matrix_(i, j) (i == f j)%:R.
  Lemma select_vec n m (f : 'I_m -> 'I_n) (v : 'cV[R]_n) : (\col_i v (f i) 0) = (select f)^T *m v.
  Proof.
    apply/colP => i. rewrite !mxE (bigD1 (f i)) //= !mxE eqxx mul1r big1 ?addr0 // => k hk. by rewrite !mxE (negbTE hk) mul0r.
  Qed.
  Lemma select_mx n m (f : 'I_m -> 'I_n) (s : 'M[R]_n) : (\matrix_(i, j) s (f i) (f j)) = (select f)^T *m s *m select f.
  Proof.
    apply/matrixP => i j. rewrite [LHS]mxE [RHS]mxE (bigD1 (f j)) //= [select f (f j) j]mxE eqxx mulr1.
    rewrite [X in _ + X]big1 ?addr0; last by move=> k hk; rewrite [select f k j]mxE (negbTE hk) mulr0.
    rewrite [RHS]mxE (bigD1 (f i)) //= [(select f)^T i (f i)]mxE [select f (f i) i]mxE eqxx mul1r.
    rewrite big1 ?addr0 // => k hk. by rewrite [(select f)^T i k]mxE [select f k i]mxE (negbTE hk) mul0r.
  Qed.
  Lemma select_posdef n m (f : 'I_m -> 'I_n) (s : 'M[R]_n) : injective f -> posdef s -> posdef (\matrix_(i, j) s (f i) (f j)).
  Proof.
    move=> hf hs. rewrite select_mx. apply: quad_inj => // v hv. apply/colP => i.
    have := congr1 (fun w : 'cV_n => w (f i) 0) hv. rewrite !mxE (bigD1 i) //= !mxE eqxx mul1r big1 ?addr0 // => k hk.
    rewrite mxE. case: eqP => [/hf e|_]; last by rewrite mul0r. by rewrite e eqxx in hk.
  Qed.
  Lemma kept_inj n ex : injective (fun i => tnth (in_tuple (kept n ex)) i).
  Proof.
    have [mono _] := kept_remaining n ex. move=> i j e. case: (ltngtP i j) => [/mono|/mono|/val_inj //]; by rewrite e ltnn.
  Qed.
  Lemma delete_posdef n ex (s : 'M[R]_n) : posdef s -> posdef (delete_mx ex s).
  Proof. by apply: select_posdef; apply: kept_inj. Qed.

  (** one dimension *)
  Lemma density1 (m : 'cV[R]_1) (s p : 'M[R]_1) (x : 'cV[R]_1) : Rlt 0 (s 0 0) -> p *m s = 1%:M ->
    normal_logpdf (x 0 0) (m 0 0) (sqrt (s 0 0)) = log_density m s p x.
  Proof.
    move=> hs hp. rewrite /log_density /normal_logpdf.
    have ep : p 0 0 = Rinv (s 0 0).
    { have := congr1 (fun w : 'M_1 => w 0 0) hp. rewrite !mxE big_ord1 eqxx /= => h.
      apply: (Rmult_eq_reg_r (s 0 0)); last by lra. rewrite Rinv_l; last by lra. exact: h. }
    have -> : ((x - m)^T *m p *m (x - m)) 0 0 = ((x 0%R 0%R - m 0%R 0%R) ^ 2 / s 0%R 0%R)%coqR :> R.
    { rewrite !mxE !big_ord1 !mxE !big_ord1 !mxE. rewrite ep. exact: quad1_arith. }
    have -> : \det s = s 0 0 by rewrite {1}[s]mx11_scalar det_scalar1.
    have h1 : Rlt 0 (sqrt (s 0 0)) by apply: sqrt_lt_R0.
    have h2 := PI_RGT_0. have h3 : Rlt 0 (sqrt (2 * PI)) by apply: sqrt_lt_R0; lra.
    have -> : (sqrt (s 0%R 0%R) ^ 2)%coqR = s 0 0 by rewrite /= Rmult_1_r sqrt_sqrt //; lra.
    rewrite ln_mult //.
    have l1 x1 : Rlt 0 x1 -> ln x1 = (2 * ln (sqrt x1))%coqR.
    { move=> hx. rewrite -{1}(sqrt_sqrt x1); last by lra. rewrite ln_mult; [lra|exact: sqrt_lt_R0|exact: sqrt_lt_R0]. }
    rewrite (l1 (s 0 0)) // (l1 (2 * PI)%coqR); last by lra. exact: uni_arith.
  Qed.
End Init.
