From Coq Require Import Reals Lra Lia Sorted Permutation.
From Coquelicot Require Import Coquelicot.
From Verif Require Import Base BaseLemmas Dist_Model Dist_Proofs Dist_Proofs2 Numerical_Model Numerical_Spec Numerical_Proofs.
Local Open Scope R_scope.

Lemma linspace_length a b n : length (linspace a b n) = n.
Proof. unfold linspace. rewrite map_length, seq_length. reflexivity. Qed.
Lemma linspace_nth a b n i : (i < n)%nat -> nth i (linspace a b n) 0 = grid_point a b n i.
Proof.
  intro Hi. unfold linspace. rewrite (nth_indep _ 0 (grid_point a b n 0)) by (rewrite map_length, seq_length; exact Hi).
  change (grid_point a b n 0) with ((fun i => a + INR i * ((b - a) / INR (n - 1))) 0%nat). rewrite map_nth, seq_nth by exact Hi. reflexivity.
Qed.
Lemma step_pos a b n : a < b -> (2 <= n)%nat -> 0 < (b - a) / INR (n - 1).
Proof. intros Hab Hn. apply Rdiv_lt_0_compat; [lra|]. apply lt_0_INR. lia. Qed.
Lemma step_total a b n : (2 <= n)%nat -> INR (n - 1) * ((b - a) / INR (n - 1)) = b - a.
Proof. intro Hn. assert (0 < INR (n - 1)) by (apply lt_0_INR; lia). field. lra. Qed.
Lemma linspace_sorted a b n : a < b -> (2 <= n)%nat -> Sorted Rlt (linspace a b n).
Proof.
  intros Hab Hn. pose proof (step_pos a b n Hab Hn) as Hd. unfold linspace. set (d := (b - a) / INR (n - 1)) in *.
  generalize 0%nat. generalize n at 1. induction n0 as [|k IH]; intro s; [constructor|]. cbn [seq map].
  destruct k as [|k]; [constructor; constructor|]. constructor; [apply IH|]. cbn [seq map]. constructor. rewrite S_INR. nra.
Qed.
Lemma linspace_first a b n : (1 <= n)%nat -> first_of (linspace a b n) = a.
Proof. intro Hn. unfold first_of. rewrite linspace_nth by lia. unfold grid_point. cbn. lra. Qed.
Lemma linspace_last a b n : (2 <= n)%nat -> last_of (linspace a b n) = b.
Proof. intro Hn. unfold last_of. rewrite linspace_length, linspace_nth by lia. unfold grid_point. rewrite step_total by exact Hn. lra. Qed.
Lemma interp_nth x : forall y i, length x = length y -> Sorted Rlt x -> (i < length x)%nat -> interp_from x y (nth i x 0) = nth i y 0.
Proof.
  induction x as [|a [|b x] IH]; intros y i Hl Hx Hi; [cbn in Hi; lia| |].
  - destruct y as [|fa [|]]; try discriminate. destruct i; [reflexivity|cbn in Hi; lia].
  - destruct y as [|fa [|fb y]]; try discriminate. pose proof Hx as Hx0. apply sorted_cons_inv in Hx as [Hab Hx].
    assert (E : forall t, interp_from (a :: b :: x) (fa :: fb :: y) t =
      (if Rlt_dec t b then fa + (fb - fa) / (b - a) * (t - a) else interp_from (b :: x) (fb :: y) t)) by reflexivity.
    rewrite E. destruct i as [|i].
    + cbn [nth]. destruct (Rlt_dec a b); [field; lra|lra].
    + change (nth (S i) (a :: b :: x) 0) with (nth i (b :: x) 0). change (nth (S i) (fa :: fb :: y) 0) with (nth i (fb :: y) 0).
      assert (b <= nth i (b :: x) 0). { apply (sorted_in_bounds (b :: x)); [apply sorted_lt_le, Hx|]. apply nth_In. cbn in Hi |- *. lia. }
      destruct (Rlt_dec (nth i (b :: x) 0) b); [lra|]. apply IH; [cbn in *; lia|exact Hx|cbn in *; lia].
Qed.

(** facts about constructed distributions *)
Lemma mk_numerical_ok x y c d : mk_numerical x y c = Ok d -> nx d = x /\ ny d = y /\ (forall v, c = Some v -> first_of x <= v <= last_of x /\ ncentral d = v).
Proof.
  unfold mk_numerical. destruct x as [|x0 x']; [discriminate|]. set (x := x0 :: x').
  destruct c as [c|].
  - destruct (Rle_dec x0 c); [|discriminate]. destruct (Rle_dec c (last x 0)); [|discriminate]. cbn [bind].
    destruct (negb _); [discriminate|]. intro E. injection E as <-. split; [reflexivity|]. split; [reflexivity|]. intros v Ev. injection Ev as <-.
    split; [|reflexivity]. rewrite last_of_eq. unfold first_of. unfold x at 1. cbn [nth]. auto.
  - destruct y as [|y0 y']; [discriminate|]. cbn [bind]. destruct (negb _); [discriminate|]. intro E. injection E as <-. repeat split; discriminate.
Qed.
Lemma numerical_facts d : is_numerical d -> exists x y cdf, table x y /\ nx d = x /\ ny d = y /\
    first_of x <= ncentral d <= last_of x /\
    ny_norm d = Some (map (fun v => v * / trapz x y) y) /\ 0 < trapz x y /\
    ncdf d = Some cdf /\ length cdf = length x /\ hd 0 cdf = 0 /\ last cdf 0 = 1 /\ Sorted Rle cdf.
Proof.
  intros (x & y & c & Ht & E). pose proof (mk_numerical_ok _ _ _ _ E) as (_ & _ & Hc).
  destruct (mk_numerical_spec x y c Ht) as (d' & cdf & E' & H1 & H2 & H3 & H4); [intros v Ev; apply (Hc v Ev)|].
  rewrite E in E'. injection E' as <-. exists x, y, cdf. tauto.
Qed.
Lemma table_ne x y : table x y -> x <> [].
Proof. intros (Hl & _ & _ & i & Hi & _) ->. cbn in Hl. lia. Qed.
Lemma table_lt x y : table x y -> first_of x < last_of x.
Proof.
  intros (Hl & Hx & _ & i & Hi & _). rewrite first_of_eq, last_of_eq. destruct x as [|a [|b x]]; cbn in Hl; try lia. apply sorted_lt_last, Hx.
Qed.
Lemma numerical_density_nonneg d t : is_numerical d -> 0 <= density d t.
Proof. intro H. destruct (numerical_facts d H) as (x & y & cdf & Ht & H1 & H2 & H3 & H4 & H5 & H6 & H7 & _). pose proof (table_ne _ _ Ht). destruct Ht as (Hl & Hx & Hy & _). apply (g_density_nonneg x y d cdf); auto. Qed.
Lemma numerical_support d : is_numerical d -> fst (nsupport d) <= ncentral d <= snd (nsupport d) /\ fst (nsupport d) < snd (nsupport d).
Proof.
  intro H. destruct (numerical_facts d H) as (x & y & cdf & Ht & H1 & H2 & H3 & _). unfold nsupport; cbn [fst snd]. rewrite H1, <- first_of_eq, <- last_of_eq.
  split; [exact H3|]. eapply table_lt, Ht.
Qed.
Lemma exp_nlogpdf d t : is_numerical d -> exp_log (nlogpdf d t) = density d t.
Proof.
  intro H. pose proof (numerical_density_nonneg d t H) as Hd. unfold nlogpdf, density in *. destruct (npdf d t) as [v|]; [|reflexivity].
  destruct (Rle_dec v 0); cbn [exp_log]; [lra|]. apply exp_ln. lra.
Qed.
Lemma exp_sum_log l t : (forall d, In d l -> is_numerical d) ->
  exp_log (sum_log (map (fun d => nlogpdf d t) l)) = product (map (fun d => density d t) l).
Proof.
  induction l as [|d l IH]; intro H; cbn [map sum_log exp_log product fold_right]; [apply exp_0|]. unfold product in IH.
  rewrite <- IH by (intros; apply H; right; assumption). rewrite <- (exp_nlogpdf d t) by (apply H; left; reflexivity).
  destruct (nlogpdf d t), (sum_log _); cbn [exp_log]; [apply exp_plus|ring|ring|ring].
Qed.
Lemma fold_max l : forall a, (a <= fold_left Rmax l a /\ forall v, In v l -> v <= fold_left Rmax l a) /\ In (fold_left Rmax l a) (a :: l).
Proof.
  induction l as [|b l IH]; intro a; cbn [fold_left]; [split; [split; [lra|intros v []]|left; reflexivity]|].
  destruct (IH (Rmax a b)) as ((H1 & H2) & H3). pose proof (Rmax_l a b). pose proof (Rmax_r a b). split; [split; [lra|]|].
  - intros v [->|Hv]; [lra|auto].
  - destruct H3 as [E|H3]; [|right; right; exact H3]. rewrite <- E. unfold Rmax. destruct (Rle_dec a b); [right; left; reflexivity|left; reflexivity].
Qed.
Lemma fold_min l : forall a, (fold_left Rmin l a <= a /\ forall v, In v l -> fold_left Rmin l a <= v) /\ In (fold_left Rmin l a) (a :: l).
Proof.
  induction l as [|b l IH]; intro a; cbn [fold_left]; [split; [split; [lra|intros v []]|left; reflexivity]|].
  destruct (IH (Rmin a b)) as ((H1 & H2) & H3). pose proof (Rmin_l a b). pose proof (Rmin_r a b). split; [split; [lra|]|].
  - intros v [->|Hv]; [lra|auto].
  - destruct H3 as [E|H3]; [|right; right; exact H3]. rewrite <- E. unfold Rmin. destruct (Rle_dec a b); [left; reflexivity|right; left; reflexivity].
Qed.
Lemma rmax_eq l m : (forall v, In v l -> v <= m) -> In m l -> rmax l = m.
Proof.
  destruct l as [|a l]; [intros _ []|]. intros H1 H2. cbn [rmax]. destruct (fold_max l a) as ((H3 & H4) & H5).
  apply Rle_antisym; [apply H1, H5|]. destruct H2 as [<-|H2]; auto.
Qed.
Lemma rmin_eq l m : (forall v, In v l -> m <= v) -> In m l -> rmin l = m.
Proof.
  destruct l as [|a l]; [intros _ []|]. intros H1 H2. cbn [rmin]. destruct (fold_min l a) as ((H3 & H4) & H5).
  apply Rle_antisym; [|apply H1, H5]. destruct H2 as [<-|H2]; auto.
Qed.
Lemma common_support_eq l lo hi : common_support l lo hi ->
  rmax (map (fun d => fst (nsupport d)) l) = lo /\ rmin (map (fun d => snd (nsupport d)) l) = hi.
Proof.
  intros (H1 & (d1 & D1 & E1) & H2 & (d2 & D2 & E2)). split; [apply rmax_eq|apply rmin_eq].
  - intros v Hv. apply in_map_iff in Hv as (d & <- & Hd). auto.
  - apply in_map_iff. eauto.
  - intros v Hv. apply in_map_iff in Hv as (d & <- & Hd). auto.
  - apply in_map_iff. eauto.
Qed.
Lemma common_support_ex l : l <> [] -> exists lo hi, common_support l lo hi.
Proof.
  destruct l as [|d l]; [congruence|]. intros _.
  destruct (fold_max (map (fun d => fst (nsupport d)) l) (fst (nsupport d))) as ((A1 & A2) & A3).
  destruct (fold_min (map (fun d => snd (nsupport d)) l) (snd (nsupport d))) as ((B1 & B2) & B3).
  exists (fold_left Rmax (map (fun d => fst (nsupport d)) l) (fst (nsupport d))), (fold_left Rmin (map (fun d => snd (nsupport d)) l) (snd (nsupport d))).
  repeat split.
  - intros d' [<-|Hd]; [exact A1|]. apply A2, in_map_iff. eauto.
  - destruct A3 as [E|A3]; [exists d; split; [left; reflexivity|exact E]|]. apply in_map_iff in A3 as (d' & E & Hd). exists d'. split; [right; exact Hd|exact E].
  - intros d' [<-|Hd]; [exact B1|]. apply B2, in_map_iff. eauto.
  - destruct B3 as [E|B3]; [exists d; split; [left; reflexivity|exact E]|]. apply in_map_iff in B3 as (d' & E & Hd). exists d'. split; [right; exact Hd|exact E].
Qed.
Lemma product_nonneg l : (forall v, In v l -> 0 <= v) -> 0 <= product l.
Proof.
  induction l as [|a l IH]; intro H; [cbn; lra|]. cbn. apply Rmult_le_pos; [apply H; left; reflexivity|apply IH; intros; apply H; right; assumption].
Qed.
Lemma product_pos l : (forall v, In v l -> 0 < v) -> 0 < product l.
Proof.
  induction l as [|a l IH]; intro H; [cbn; lra|]. cbn. apply Rmult_lt_0_compat; [apply H; left; reflexivity|apply IH; intros; apply H; right; assumption].
Qed.

Lemma combine_n n l lo hi i : (2 <= n)%nat -> (forall d, In d l -> is_numerical d) -> common_support l lo hi -> lo < hi ->
  (S i < n)%nat -> (forall d, In d l -> 0 < density d (grid_point lo hi n i)) ->
  exists r K, combine_tables_n n l = Ok r /\ is_numerical r /\ nsupport r = (lo, hi) /\ 0 < K /\
    (forall j, (j < n)%nat -> density r (grid_point lo hi n j) = K * product (map (fun d => density d (grid_point lo hi n j)) l)).
Proof.
  intros Hn Hl Hs Hlt Hi Hpos. unfold combine_tables_n. destruct (common_support_eq l lo hi Hs) as [-> ->].
  destruct (Rle_dec hi lo); [lra|]. set (x := linspace lo hi n). set (y := map _ x).
  assert (Ey : y = map (fun t => product (map (fun d => density d t) l)) x) by (apply map_ext; intro t; apply exp_sum_log, Hl).
  assert (Hy : forall j, (j < n)%nat -> nth j y 0 = product (map (fun d => density d (grid_point lo hi n j)) l)).
  { intros j Hj. rewrite Ey. rewrite (nth_indep _ 0 ((fun t => product (map (fun d => density d t) l)) 0)) by (rewrite map_length; unfold x; rewrite linspace_length; exact Hj).
    rewrite (map_nth (fun t => product (map (fun d => density d t) l))). unfold x. rewrite linspace_nth by exact Hj. reflexivity. }
  assert (Ht : table x y).
  { split; [unfold y; rewrite map_length; reflexivity|]. split; [apply linspace_sorted; assumption|]. split.
    - rewrite Ey. apply Forall_forall. intros v Hv. apply in_map_iff in Hv as (t & <- & _). apply product_nonneg. intros w Hw.
      apply in_map_iff in Hw as (d & <- & Hd). apply numerical_density_nonneg, Hl, Hd.
    - exists i. split; [rewrite Ey, map_length; unfold x; rewrite linspace_length; exact Hi|]. rewrite Hy by lia. apply product_pos. intros w Hw.
      apply in_map_iff in Hw as (d & <- & Hd). apply Hpos, Hd. }
  destruct (mk_numerical_spec x y None Ht ltac:(discriminate)) as (r & cdf & E & H1 & H2 & _ & H3 & H4 & H5 & _).
  exists r, (/ trapz x y). split; [exact E|]. split; [exists x, y, None; auto|]. split.
  - unfold nsupport. rewrite H1, <- first_of_eq, <- last_of_eq. unfold x. rewrite linspace_first, linspace_last by lia. reflexivity.
  - split; [apply Rinv_0_lt_compat, H5|]. intros j Hj. rewrite <- Hy by exact Hj. unfold density, npdf. rewrite H4, H1.
    destruct Ht as (Hlen & Hx & _).
    assert (Ex : grid_point lo hi n j = nth j x 0) by (unfold x; rewrite linspace_nth by exact Hj; reflexivity).
    rewrite Ex. assert (Hjx : (j < length x)%nat) by (unfold x; rewrite linspace_length; exact Hj).
    rewrite interp_in.
    + rewrite interp_nth; [|rewrite map_length; exact Hlen|exact Hx|exact Hjx].
      rewrite (nth_indep _ 0 (0 * / trapz x y)) by (rewrite map_length, <- Hlen; exact Hjx). rewrite (map_nth (fun v => v * / trapz x y)). ring.
    + intro Ex0. rewrite Ex0 in Hjx. cbn in Hjx. lia.
    + apply sorted_in_bounds; [apply sorted_lt_le, Hx|apply nth_In, Hjx].
Qed.
Lemma combine_no_overlap n l lo hi : common_support l lo hi -> hi <= lo -> combine_tables_n n l = Err ValueError.
Proof. intros Hs Hlt. unfold combine_tables_n. destruct (common_support_eq l lo hi Hs) as [-> ->]. destruct (Rle_dec hi lo); [reflexivity|lra]. Qed.

(** ** convolution *)
Lemma rsum_total l : rsum l = total l.
Proof. induction l as [|a l IH]; [reflexivity|]. rewrite rsum_cons, IH. reflexivity. Qed.
Lemma rsum_zero {A} (f : A -> R) l : (forall a, In a l -> f a = 0) -> rsum (map f l) = 0.
Proof. intro H. induction l as [|a l IH]; [reflexivity|]. cbn [map]. rewrite rsum_cons, H, IH; [lra|intros; apply H; right; assumption|left; reflexivity]. Qed.
Lemma rsum_single {A} (dec : forall a b : A, {a = b} + {a <> b}) (f : A -> R) l a : NoDup l -> In a l -> (forall b, In b l -> b <> a -> f b = 0) -> rsum (map f l) = f a.
Proof.
  induction 1 as [|b l Hn Hnd IH]; [intros []|]. intros Hin Hz. cbn [map]. rewrite rsum_cons.
  destruct (dec b a) as [->|Hne].
  - rewrite rsum_zero; [lra|]. intros c Hc. apply Hz; [right; exact Hc|congruence].
  - destruct Hin as [|Hin]; [congruence|]. rewrite (Hz b (or_introl eq_refl) Hne), IH; [lra|exact Hin|intros c Hc; apply Hz; right; exact Hc].
Qed.
(** the sum over pairs of indices with given total *)
Lemma pair_sum (a b : list R) n K : length a = n -> length b = n ->
  rsum (map (fun p => if Nat.eqb (fst p + snd p) K then nth (fst p) a 0 * nth (snd p) b 0 else 0) (list_prod (seq 0 n) (seq 0 n))) = conv_at a b K.
Proof.
  intros Ha Hb. unfold conv_at.
  assert (Hflat : forall (l m : list nat) (F : nat * nat -> R),
    rsum (map F (list_prod l m)) = rsum (map (fun j => rsum (map (fun k => F (j, k)) m)) l)).
  { intros l m F. induction l as [|j l IH]; [reflexivity|]. cbn [list_prod map]. rewrite map_app, rsum_app, map_map, IH, rsum_cons. reflexivity. }
  rewrite Hflat. cbn [fst snd].
  set (g := fun j => if Nat.leb j K then nth j a 0 * nth (K - j) b 0 else 0).
  assert (E1 : forall j, rsum (map (fun k => if Nat.eqb (j + k) K then nth j a 0 * nth k b 0 else 0) (seq 0 n)) = g j).
  { intro j. unfold g. destruct (Nat.leb_spec j K) as [Hj|Hj].
    - destruct (Nat.ltb_spec (K - j) n) as [Hk|Hk].
      + rewrite (rsum_single Nat.eq_dec _ _ (K - j)%nat).
        * replace (j + (K - j))%nat with K by lia. rewrite Nat.eqb_refl. reflexivity.
        * apply seq_NoDup.
        * apply in_seq. lia.
        * intros k _ Hne. destruct (Nat.eqb_spec (j + k) K); [lia|reflexivity].
      + rewrite rsum_zero; [rewrite (nth_overflow b) by lia; lra|]. intros k Hk'. apply in_seq in Hk'. destruct (Nat.eqb_spec (j + k) K); [lia|reflexivity].
    - apply rsum_zero. intros k _. destruct (Nat.eqb_spec (j + k) K); [lia|reflexivity]. }
  rewrite (rsum_map_ext _ _ _ (fun j _ => E1 j)).
  assert (E2 : rsum (map (fun j => nth j a 0 * nth (K - j) b 0) (seq 0 (S K))) = rsum (map g (seq 0 (S K)))).
  { apply rsum_map_ext. intros j Hj. apply in_seq in Hj. unfold g. destruct (Nat.leb_spec j K); [reflexivity|lia]. }
  rewrite E2.
  assert (Hext : forall N M, (N <= M)%nat -> (forall j, (N <= j)%nat -> g j = 0) -> rsum (map g (seq 0 M)) = rsum (map g (seq 0 N))).
  { intros N M HNM Hz. replace M with (N + (M - N))%nat by lia. rewrite seq_app, map_app, rsum_app. rewrite (rsum_zero g (seq (0 + N) (M - N))); [lra|].
    intros j Hj. apply in_seq in Hj. apply Hz. lia. }
  transitivity (rsum (map g (seq 0 (Nat.max n (S K))))).
  - symmetry. apply Hext; [lia|]. intros j Hj. unfold g. destruct (Nat.leb j K); [rewrite (nth_overflow a) by lia; lra|reflexivity].
  - apply Hext; [lia|]. intros j Hj. unfold g. destruct (Nat.leb_spec j K); [lia|reflexivity].
Qed.
Lemma conv_full_nth a b k : (k < length a + length b - 1)%nat -> nth k (conv_full a b) 0 = conv_at a b k.
Proof.
  intro Hk. unfold conv_full. rewrite (nth_indep _ 0 (conv_at a b 0)) by (rewrite map_length, seq_length; exact Hk).
  rewrite (map_nth (conv_at a b)), seq_nth by exact Hk. reflexivity.
Qed.
Lemma nth_skipn {A} (l : list A) d n k : nth k (skipn n l) d = nth (n + k) l d.
Proof. revert l. induction n as [|n IH]; intro l; [reflexivity|]. destruct l; [destruct k; reflexivity|]. cbn. apply IH. Qed.
Lemma nth_firstn {A} (l : list A) d n k : (k < n)%nat -> nth k (firstn n l) d = nth k l d.
Proof. revert l k. induction n as [|n IH]; intros l k Hk; [lia|]. destruct l; [destruct k; reflexivity|]. destruct k; [reflexivity|]. cbn. apply IH. lia. Qed.

Lemma floor_bounds r : IZR (Int_part r) <= r < IZR (Int_part r) + 1.
Proof. pose proof (base_fp r) as (H1 & H2). unfold frac_part in *. lra. Qed.
Lemma floor_nat r (n : nat) : 0 <= r -> r <= INR n -> INR (Z.to_nat (Int_part r)) = IZR (Int_part r) /\ (Z.to_nat (Int_part r) <= n)%nat.
Proof.
  intros H0 Hn. pose proof (floor_bounds r) as (H1 & H2).
  assert (Hz : (0 <= Int_part r)%Z). { apply Z.lt_succ_r. apply lt_IZR. rewrite succ_IZR. lra. }
  split; [rewrite INR_IZR_INZ, Z2Nat.id by exact Hz; reflexivity|].
  apply INR_le. rewrite INR_IZR_INZ, Z2Nat.id by exact Hz. lra.
Qed.

Lemma convolve_two n (same : bool) d1 d2 c : (2 <= n)%nat -> is_numerical d1 -> is_numerical d2 ->
  (if same then ncentral d1 = c /\ ncentral d2 = c else c = ncentral d1 + ncentral d2) ->
  let lo := c + (fst (nsupport d1) - ncentral d1) + (fst (nsupport d2) - ncentral d2) in
  let hi := c + (snd (nsupport d1) - ncentral d1) + (snd (nsupport d2) - ncentral d2) in
  let delta := (hi - lo) / INR (n - 1) in
  let g := grid_point lo hi n in
  lo < hi /\ lo <= c <= hi /\
  exists r, convolve_tables_n n same [d1; d2] = Ok r /\ nsupport r = (lo, hi) /\ ncentral r = c /\ length (nx r) = n /\ length (ny r) = n /\
    (forall k, (k < n)%nat -> nth k (nx r) 0 = g k) /\
    forall k, (k < n)%nat ->
      nth k (ny r) 0 = total (map (fun p =>
        let u := g (fst p) - c + ncentral d1 in let v := g (snd p) - c + ncentral d2 in
        if_in_bin ((u - ncentral d1) + (v - ncentral d2) + c) (g k) delta (density d1 u * delta * (density d2 v * delta)))
        (list_prod (seq 0 n) (seq 0 n))).
Proof.
  intros Hn N1 N2 Hc lo hi delta g.
  destruct (numerical_support d1 N1) as [S1 L1]. destruct (numerical_support d2 N2) as [S2 L2].
  assert (Hlh : lo < hi) by (unfold lo, hi; lra). assert (Hcr : lo <= c <= hi) by (unfold lo, hi; lra).
  split; [exact Hlh|]. split; [exact Hcr|].
  pose proof (step_pos lo hi n Hlh Hn) as Hd. fold delta in Hd.
  assert (Hm : INR (n - 1) * delta = hi - lo) by (apply step_total, Hn).
  assert (Hq : 0 <= (c - lo) / delta <= INR (n - 1)).
  { split; [apply Rmult_le_pos; [lra|apply Rlt_le, Rinv_0_lt_compat, Hd]|]. apply Rmult_le_reg_r with delta; [exact Hd|]. rewrite Hm. unfold Rdiv. rewrite Rmult_assoc, Rinv_l by lra. lra. }
  destruct (floor_nat _ (n - 1) (proj1 Hq) (proj2 Hq)) as [Hnc Hncle]. set (nc := Z.to_nat (Int_part ((c - lo) / delta))) in *.
  assert (Hfl : c - delta < lo + INR nc * delta <= c).
  { pose proof (floor_bounds ((c - lo) / delta)) as (F1 & F2). rewrite <- Hnc in F1, F2.
    assert (Ed : (c - lo) / delta * delta = c - lo) by (field; lra). split; nra. }
  assert (Egrid : convolve_grid n same [d1; d2] = (c, (lo, hi), delta)).
  { assert (Ec : (if same then ncentral d1 else rsum (map ncentral [d1; d2])) = c).
    { destruct same; [tauto|]. rewrite rsum_total. cbn. lra. }
    unfold convolve_grid. rewrite Ec. rewrite !rsum_total. cbn [map total fold_right].
    assert (E1 : c - (c - (fst (nsupport d1) + (c - ncentral d1)) + (c - (fst (nsupport d2) + (c - ncentral d2)) + 0)) = lo) by (unfold lo; lra).
    assert (E2 : c - (c - (snd (nsupport d1) + (c - ncentral d1)) + (c - (snd (nsupport d2) + (c - ncentral d2)) + 0)) = hi) by (unfold hi; lra).
    rewrite E1, E2. reflexivity. }
  assert (Hchk : same && negb (forallb (fun p => req (ncentral p) (ncentral d1)) [d1; d2]) = false).
  { destruct same; [|reflexivity]. destruct Hc as [Hc1 Hc2]. cbn [forallb]. unfold req. rewrite Hc1, Hc2. destruct (Req_EM_T c c); [reflexivity|lra]. }
  unfold convolve_tables_n. rewrite Hchk, Egrid. fold nc.
  set (x := linspace lo hi n). set (y1 := fun d : numdist => map (fun t => exp_log (nlogpdf d (t - (c - ncentral d))) * delta) x).
  change (fold_left _ _ _) with (firstn n (skipn nc (conv_full (y1 d1) (y1 d2)))) || idtac. set (y := firstn n (skipn nc (conv_full (y1 d1) (y1 d2)))).
  assert (Hy1 : forall d, length (y1 d) = n) by (intro d; unfold y1, x; rewrite map_length, linspace_length; reflexivity).
  assert (Hly : length y = n). { unfold y. rewrite firstn_length, skipn_length. unfold conv_full. rewrite map_length, seq_length, !Hy1. lia. }
  assert (Hlx : length x = n) by apply linspace_length.
  assert (Hk : exists r, mk_numerical x y (Some c) = Ok r).
  { assert (Hf : first_of x = lo) by (apply linspace_first; lia).
    assert (Hlst : last x 0 = hi) by (rewrite <- last_of_eq; apply linspace_last; lia).
    clearbody y x. unfold mk_numerical. destruct x as [|x0 x']; [cbn in Hlx; lia|].
    unfold first_of in Hf. cbn [nth] in Hf. rewrite Hlst. destruct (Rle_dec x0 c); [|lra]. destruct (Rle_dec c hi); [|lra]. cbn [bind].
    rewrite Hlx, Hly, Nat.eqb_refl. cbn [negb]. eexists. reflexivity. }
  destruct Hk as (r & Er). exists r. split; [exact Er|]. destruct (mk_numerical_ok _ _ _ _ Er) as (Ex & Ey & Hcc).
  destruct (Hcc c eq_refl) as [_ Ecc].
  split; [unfold nsupport; rewrite Ex, <- first_of_eq, <- last_of_eq; unfold x; rewrite linspace_first, linspace_last by lia; reflexivity|].
  split; [exact Ecc|]. rewrite Ex, Ey. split; [exact Hlx|]. split; [exact Hly|]. split; [intros k Hk; unfold x; apply linspace_nth, Hk|].
  intros k Hk. rewrite <- rsum_total. unfold y. rewrite nth_firstn by exact Hk. rewrite nth_skipn, conv_full_nth by (rewrite !Hy1; lia).
  rewrite <- (pair_sum (y1 d1) (y1 d2) n) by apply Hy1. apply rsum_map_ext. intros (j, m) Hjm. apply in_prod_iff in Hjm as [Hj Hm'].
  apply in_seq in Hj. apply in_seq in Hm'. cbn [fst snd]. cbv zeta.
  assert (Hy1n : forall d j, is_numerical d -> (j < n)%nat -> nth j (y1 d) 0 = density d (g j - c + ncentral d) * delta).
  { intros d j' Nd Hj'. unfold y1. set (F := fun t : R => exp_log (nlogpdf d (t - (c - ncentral d))) * delta).
    rewrite (nth_indep _ 0 (F 0)) by (rewrite map_length, Hlx; exact Hj'). rewrite (map_nth F). unfold F, x. rewrite linspace_nth by exact Hj'.
    rewrite exp_nlogpdf by exact Nd. f_equal. f_equal. unfold g. lra. }
  rewrite !Hy1n by (auto; lia).
  assert (Epos : (g j - c + ncentral d1 - ncentral d1) + (g m - c + ncentral d2 - ncentral d2) + c = g k + (INR (j + m) - INR (nc + k)) * delta + (lo + INR nc * delta - c)).
  { unfold g, grid_point. fold delta. rewrite !plus_INR. lra. }
  rewrite Epos. unfold if_in_bin. destruct (Nat.eqb_spec (j + m) (nc + k)) as [Ejm|Ejm].
  - rewrite Ejm. destruct (Rlt_dec _ _) as [|Hx]; [|exfalso; apply Hx; lra]. destruct (Rle_dec _ _) as [|Hx]; [reflexivity|exfalso; apply Hx; lra].
  - assert (Hcase : INR (j + m) - INR (nc + k) <= -1 \/ 1 <= INR (j + m) - INR (nc + k)).
    { destruct (Nat.lt_ge_cases (j + m) (nc + k)) as [Hlt|Hge].
      - left. assert (Hs : (S (j + m) <= nc + k)%nat) by lia. apply le_INR in Hs. rewrite S_INR in Hs. lra.
      - right. assert (Hs : (S (nc + k) <= j + m)%nat) by lia. apply le_INR in Hs. rewrite S_INR in Hs. lra. }
    destruct (Rlt_dec _ _) as [Hx|]; [|reflexivity]. destruct (Rle_dec _ _) as [Hx'|]; [|reflexivity]. exfalso. destruct Hcase; nra.
Qed.
