From Coq Require Import Reals Lra Lia Sorted Permutation.
From Coquelicot Require Import Coquelicot.
From Verif Require Import Base BaseLemmas Dist_Model Dist_Proofs Dist_Proofs2 Numerical_Model Numerical_Spec.
Local Open Scope R_scope.

Lemma last_cons {A} (a b : A) l d : last (a :: b :: l) d = last (b :: l) d.
Proof. reflexivity. Qed.
Lemma last_of_eq x : last_of x = last x 0.
Proof.
  unfold last_of. induction x as [|a [|b x] IH]; [reflexivity|reflexivity|].
  rewrite last_cons, <- IH. cbn [length]. replace (S (S (length x)) - 1)%nat with (S (S (length x) - 1)) by lia. reflexivity.
Qed.
Lemma first_of_eq x : first_of x = hd 0 x.
Proof. destruct x; reflexivity. Qed.

Lemma sorted_cons_inv (Rel : R -> R -> Prop) a b l : Sorted Rel (a :: b :: l) -> Rel a b /\ Sorted Rel (b :: l).
Proof. intro H. inversion H as [|? ? Hs Hh]; subst. inversion Hh; subst. auto. Qed.
Lemma sorted_lt_le l : Sorted Rlt l -> Sorted Rle l.
Proof.
  induction l as [|a [|b l] IH]; intro H; [constructor|constructor; constructor|].
  apply sorted_cons_inv in H as [Hab H]. constructor; [auto|]. constructor. lra.
Qed.
Lemma sorted_le_last a l : Sorted Rle (a :: l) -> a <= last (a :: l) 0.
Proof.
  revert a. induction l as [|b l IH]; intros a H; [cbn; lra|]. apply sorted_cons_inv in H as [Hab H].
  rewrite last_cons. specialize (IH b H). lra.
Qed.
Lemma sorted_lt_last a b l : Sorted Rlt (a :: b :: l) -> a < last (a :: b :: l) 0.
Proof.
  intro H. apply sorted_cons_inv in H as [Hab H]. rewrite last_cons. pose proof (sorted_le_last b l (sorted_lt_le _ H)). lra.
Qed.

(** ** linear interpolation *)
Lemma segment_bounds a b fa fb t : a <= t < b -> fa <= fb -> fa <= fa + (fb - fa) / (b - a) * (t - a) <= fb.
Proof.
  intros Ht Hf. assert (0 <= (fb - fa) / (b - a)) by (apply Rmult_le_pos; [lra|]; apply Rlt_le, Rinv_0_lt_compat; lra).
  assert (E : (fb - fa) / (b - a) * (b - a) = fb - fa) by (field; lra).
  assert (0 <= (fb - fa) / (b - a) * (t - a)) by (apply Rmult_le_pos; lra).
  assert ((fb - fa) / (b - a) * (t - a) <= (fb - fa) / (b - a) * (b - a)) by (apply Rmult_le_compat_l; lra). lra.
Qed.
Lemma interp_bounds xp : forall fp t, length xp = length fp -> xp <> [] -> Sorted Rle xp -> Sorted Rle fp -> hd 0 xp <= t ->
  hd 0 fp <= interp_from xp fp t <= last fp 0.
Proof.
  induction xp as [|a [|b xp] IH]; intros fp t Hl Hne Hx Hf Ht; [congruence| |].
  - destruct fp as [|fa [|]]; try discriminate. cbn. lra.
  - destruct fp as [|fa [|fb fp]]; try discriminate.
    apply sorted_cons_inv in Hx as [Hab Hx]. pose proof Hf as Hf0. apply sorted_cons_inv in Hf as [Hfab Hf].
    pose proof (sorted_le_last fb fp Hf) as Hlast. rewrite last_cons.
    change (interp_from (a :: b :: xp) (fa :: fb :: fp) t) with
      (if Rlt_dec t b then fa + (fb - fa) / (b - a) * (t - a) else interp_from (b :: xp) (fb :: fp) t).
    cbn [hd] in *. destruct (Rlt_dec t b).
    + pose proof (segment_bounds a b fa fb t ltac:(lra) Hfab). lra.
    + specialize (IH (fb :: fp) t ltac:(cbn in *; lia) ltac:(discriminate) Hx Hf ltac:(cbn; lra)). cbn [hd] in IH. lra.
Qed.
Lemma interp_mono xp : forall fp t t', length xp = length fp -> Sorted Rle xp -> Sorted Rle fp -> hd 0 xp <= t -> t <= t' ->
  interp_from xp fp t <= interp_from xp fp t'.
Proof.
  induction xp as [|a [|b xp] IH]; intros fp t t' Hl Hx Hf Ht Htt.
  - cbn. lra.
  - destruct fp as [|fa [|]]; try discriminate. cbn. lra.
  - destruct fp as [|fa [|fb fp]]; try discriminate.
    apply sorted_cons_inv in Hx as [Hab Hx]. apply sorted_cons_inv in Hf as [Hfab Hf].
    change (forall t, interp_from (a :: b :: xp) (fa :: fb :: fp) t =
      (if Rlt_dec t b then fa + (fb - fa) / (b - a) * (t - a) else interp_from (b :: xp) (fb :: fp) t)) with
      (forall t, interp_from (a :: b :: xp) (fa :: fb :: fp) t = interp_from (a :: b :: xp) (fa :: fb :: fp) t) in *.
    assert (E : forall t, interp_from (a :: b :: xp) (fa :: fb :: fp) t =
      (if Rlt_dec t b then fa + (fb - fa) / (b - a) * (t - a) else interp_from (b :: xp) (fb :: fp) t)) by reflexivity.
    rewrite !E. cbn [hd] in Ht. destruct (Rlt_dec t b) as [H1|H1], (Rlt_dec t' b) as [H2|H2]; try lra.
    + assert (0 <= (fb - fa) / (b - a)) by (apply Rmult_le_pos; [lra|]; apply Rlt_le, Rinv_0_lt_compat; lra). nra.
    + pose proof (segment_bounds a b fa fb t ltac:(lra) Hfab).
      pose proof (interp_bounds (b :: xp) (fb :: fp) t' ltac:(cbn in *; lia) ltac:(discriminate) Hx Hf ltac:(cbn; lra)) as Hb. cbn [hd] in Hb. lra.
    + apply IH; auto; try (cbn in *; lia). cbn. lra.
Qed.
Lemma interp_first a xp fa fp : length xp = length fp -> Sorted Rlt (a :: xp) -> interp_from (a :: xp) (fa :: fp) a = fa.
Proof.
  destruct xp as [|b xp], fp as [|fb fp]; try discriminate; intros _ H; [reflexivity|]. apply sorted_cons_inv in H as [Hab _].
  cbn. destruct (Rlt_dec a b); [|lra]. field. lra.
Qed.
Lemma interp_last xp : forall fp, length xp = length fp -> Sorted Rlt xp -> xp <> [] -> interp_from xp fp (last xp 0) = last fp 0.
Proof.
  induction xp as [|a [|b xp] IH]; intros fp Hl Hx Hne; [congruence| |].
  - destruct fp as [|fa [|]]; try discriminate. reflexivity.
  - destruct fp as [|fa [|fb fp]]; try discriminate. rewrite !last_cons. apply sorted_cons_inv in Hx as [Hab Hx].
    pose proof (sorted_le_last b xp (sorted_lt_le _ Hx)).
    change (interp_from (a :: b :: xp) (fa :: fb :: fp) ?t) with
      (if Rlt_dec t b then fa + (fb - fa) / (b - a) * (t - a) else interp_from (b :: xp) (fb :: fp) t).
    destruct (Rlt_dec (last (b :: xp) 0) b); [lra|]. apply IH; [cbn in *; lia|exact Hx|discriminate].
Qed.
Lemma interp_inverse x : forall c r, length x = length c -> x <> [] -> Sorted Rlt x -> Sorted Rle c -> hd 0 c <= r <= last c 0 ->
  interp_from x c (interp_from c x r) = r.
Proof.
  induction x as [|a [|b x] IH]; intros c r Hl Hne Hx Hc Hr; [congruence| |].
  - destruct c as [|ca [|]]; try discriminate. cbn in *. lra.
  - destruct c as [|ca [|cb c]]; try discriminate. pose proof Hx as Hx0. pose proof Hc as Hc0.
    apply sorted_cons_inv in Hx as [Hab Hx]. apply sorted_cons_inv in Hc as [Hcab Hc].
    change (interp_from (ca :: cb :: c) (a :: b :: x) r) with
      (if Rlt_dec r cb then a + (b - a) / (cb - ca) * (r - ca) else interp_from (cb :: c) (b :: x) r).
    rewrite last_cons in Hr. cbn [hd] in Hr.
    assert (E : forall t, interp_from (a :: b :: x) (ca :: cb :: c) t =
      (if Rlt_dec t b then ca + (cb - ca) / (b - a) * (t - a) else interp_from (b :: x) (cb :: c) t)) by reflexivity.
    rewrite E. destruct (Rlt_dec r cb) as [H1|H1].
    + assert (Hlt : a + (b - a) / (cb - ca) * (r - ca) < b).
      { assert (0 < (b - a) / (cb - ca)) by (apply Rdiv_lt_0_compat; lra).
        assert ((b - a) / (cb - ca) * (cb - ca) = b - a) by (field; lra).
        assert ((b - a) / (cb - ca) * (r - ca) < (b - a) / (cb - ca) * (cb - ca)) by (apply Rmult_lt_compat_l; lra). lra. }
      destruct (Rlt_dec (a + (b - a) / (cb - ca) * (r - ca)) b); [|lra]. field. lra.
    + pose proof (interp_bounds (cb :: c) (b :: x) r ltac:(cbn in *; lia) ltac:(discriminate) Hc (sorted_lt_le _ Hx) ltac:(cbn; lra)) as Hb. cbn [hd] in Hb.
      destruct (Rlt_dec (interp_from (cb :: c) (b :: x) r) b); [lra|].
      apply IH; auto; try (cbn in *; lia); [discriminate|cbn [hd]; lra].
Qed.

(** ** the integral of the interpolant *)
Lemma line_integral a b fa fb : a < b -> is_RInt (fun t => fa + (fb - fa) / (b - a) * (t - a)) a b ((b - a) * (fa + fb) / 2).
Proof.
  intro Hab. set (k := (fb - fa) / (b - a)).
  assert (Ek : k * (b - a) = fb - fa) by (unfold k; field; lra).
  replace ((b - a) * (fa + fb) / 2) with (minus (fa * b + k * (b - a) ^ 2 / 2) (fa * a + k * (a - a) ^ 2 / 2)).
  - apply (is_RInt_derive (fun t => fa * t + k * (t - a) ^ 2 / 2)).
    + intros t _. auto_derive; [exact I|]. field.
    + intros t _. apply (continuous_plus (fun _ => fa) (fun t => k * (t - a))); [apply continuous_const|].
      apply (continuous_mult (fun _ => k) (fun t => t - a)); [apply continuous_const|].
      apply (continuous_minus (fun t => t) (fun _ => a)); [apply continuous_id|apply continuous_const].
  - unfold minus, plus, opp; cbn. replace (b * fa) with (fa * b) by ring.
    replace (k * ((b - a) * ((b - a) * 1)) / 2) with ((fb - fa) * (b - a) / 2) by (rewrite <- Ek; field). field.
Qed.
Lemma interp_integral x : forall y, length x = length y -> Sorted Rlt x -> x <> [] ->
  is_RInt (interp_from x y) (hd 0 x) (last x 0) (trapz x y).
Proof.
  induction x as [|a [|b x] IH]; intros y Hl Hx Hne; [congruence| |].
  - destruct y as [|fa [|]]; try discriminate. exact (is_RInt_point (interp_from [a] [fa]) a).
  - destruct y as [|fa [|fb y]]; try discriminate. apply sorted_cons_inv in Hx as [Hab Hx].
    pose proof (sorted_le_last b x (sorted_lt_le _ Hx)) as Hlast. rewrite last_cons. cbn [hd].
    change (trapz (a :: b :: x) (fa :: fb :: y)) with ((b - a) * (fa + fb) / 2 + trapz (b :: x) (fb :: y)).
    assert (E : forall t, interp_from (a :: b :: x) (fa :: fb :: y) t =
      (if Rlt_dec t b then fa + (fb - fa) / (b - a) * (t - a) else interp_from (b :: x) (fb :: y) t)) by reflexivity.
    change (is_RInt (interp_from (a :: b :: x) (fa :: fb :: y)) a (last (b :: x) 0) (plus ((b - a) * (fa + fb) / 2) (trapz (b :: x) (fb :: y)))).
    apply (is_RInt_Chasles (V := R_NormedModule) _ a b (last (b :: x) 0)).
    + eapply is_RInt_ext; [|apply (line_integral a b fa fb Hab)]. intros t Ht. rewrite Rmin_left, Rmax_right in Ht by lra.
      rewrite E. destruct (Rlt_dec t b); [reflexivity|lra].
    + eapply is_RInt_ext; [|apply (IH (fb :: y)); [cbn in *; lia|exact Hx|discriminate]].
      cbn [hd]. intros t Ht. rewrite Rmin_left, Rmax_right in Ht by lra. rewrite E. destruct (Rlt_dec t b); [lra|reflexivity].
Qed.

(** ** normalisation and cumulation *)
Lemma trapz_nonneg x : forall y, Sorted Rle x -> Forall (fun v => 0 <= v) y -> 0 <= trapz x y.
Proof.
  induction x as [|a [|b x] IH]; intros y Hx Hy; [cbn; lra|cbn; destruct y as [|? []]; lra|].
  destruct y as [|fa [|fb y]]; [cbn; lra|cbn; lra|]. apply sorted_cons_inv in Hx as [Hab Hx]. inversion Hy as [|? ? Hfa Hy']; subst. inversion Hy'; subst.
  change (trapz (a :: b :: x) (fa :: fb :: y)) with ((b - a) * (fa + fb) / 2 + trapz (b :: x) (fb :: y)).
  specialize (IH (fb :: y) Hx Hy'). assert (0 <= (b - a) * (fa + fb)) by (apply Rmult_le_pos; lra). lra.
Qed.
Lemma trapz_pos x : forall y i, length x = length y -> Sorted Rlt x -> Forall (fun v => 0 <= v) y -> (S i < length y)%nat -> 0 < nth i y 0 ->
  0 < trapz x y.
Proof.
  induction x as [|a [|b x] IH]; intros y i Hl Hx Hy Hi Hp; [cbn in *; lia|cbn in *; lia|].
  destruct y as [|fa [|fb y]]; [cbn in *; lia|cbn in *; lia|]. apply sorted_cons_inv in Hx as [Hab Hx]. inversion Hy as [|? ? Hfa Hy']; subst. inversion Hy'; subst.
  change (trapz (a :: b :: x) (fa :: fb :: y)) with ((b - a) * (fa + fb) / 2 + trapz (b :: x) (fb :: y)).
  pose proof (trapz_nonneg (b :: x) (fb :: y) (sorted_lt_le _ Hx) Hy').
  destruct i as [|i].
  - cbn in Hp. assert (0 < (b - a) * (fa + fb)) by (apply Rmult_lt_0_compat; lra). lra.
  - assert (0 < trapz (b :: x) (fb :: y)) by (apply (IH _ i); auto; cbn in *; lia).
    assert (0 <= (b - a) * (fa + fb)) by (apply Rmult_le_pos; lra). lra.
Qed.
Lemma trapz_scale x : forall y k, trapz x (map (fun v => v * k) y) = trapz x y * k.
Proof.
  induction x as [|a [|b x] IH]; intros y k; [cbn; lra| |].
  - cbn. destruct y as [|? []]; cbn; lra.
  - destruct y as [|fa [|fb y]]; [cbn; lra|cbn; lra|]. cbn [map].
    change (trapz (a :: b :: x) (fa :: fb :: y)) with ((b - a) * (fa + fb) / 2 + trapz (b :: x) (fb :: y)).
    change (trapz (a :: b :: x) (fa * k :: fb * k :: map (fun v => v * k) y)) with
      ((b - a) * (fa * k + fb * k) / 2 + trapz (b :: x) (map (fun v => v * k) (fb :: y))).
    rewrite IH. field.
Qed.
Lemma cumulate_spec x : forall y acc, length x = length y -> Sorted Rlt x -> Forall (fun v => 0 <= v) y -> x <> [] ->
  length (cumulate acc x y) = length x /\ hd 0 (cumulate acc x y) = acc /\ Sorted Rle (cumulate acc x y) /\
  (forall i, (S i < length y)%nat -> 0 < nth i y 0 -> acc < last (cumulate acc x y) 0).
Proof.
  induction x as [|a [|b x] IH]; intros y acc Hl Hx Hy Hne; [congruence| |].
  - destruct y as [|fa [|]]; try discriminate. cbn. repeat split; auto. intros i Hi. lia.
  - destruct y as [|fa [|fb y]]; [discriminate|discriminate|]. apply sorted_cons_inv in Hx as [Hab Hx]. inversion Hy as [|? ? Hfa Hy']; subst.
    change (cumulate acc (a :: b :: x) (fa :: fb :: y)) with (acc :: cumulate (acc + fa * (b - a)) (b :: x) (fb :: y)).
    destruct (IH (fb :: y) (acc + fa * (b - a)) ltac:(cbn in *; lia) Hx Hy' ltac:(discriminate)) as (H1 & H2 & H3 & H4).
    assert (Hacc : acc <= acc + fa * (b - a)) by (assert (0 <= fa * (b - a)) by (apply Rmult_le_pos; lra); lra).
    destruct (cumulate (acc + fa * (b - a)) (b :: x) (fb :: y)) as [|c0 cs] eqn:Ec; [discriminate|]. cbn [hd] in H2. subst c0.
    repeat split.
    + cbn [length] in *. lia.
    + constructor; [exact H3|]. constructor. exact Hacc.
    + intros i Hi Hp. rewrite last_cons. destruct i as [|i].
      * cbn in Hp. pose proof (sorted_le_last _ _ H3). assert (0 < fa * (b - a)) by (apply Rmult_lt_0_compat; lra). lra.
      * specialize (H4 i ltac:(cbn in *; lia) Hp). lra.
Qed.
Lemma last_map (f : R -> R) l : l <> [] -> last (map f l) 0 = f (last l 0).
Proof. induction l as [|a [|b l] IH]; intro H; [congruence|reflexivity|]. cbn [map]. rewrite !last_cons. apply IH. discriminate. Qed.
Lemma sorted_map_div l k : 0 < k -> Sorted Rle l -> Sorted Rle (map (fun v => v / k) l).
Proof.
  intros Hk. induction l as [|a [|b l] IH]; intro H; [constructor|constructor; constructor|].
  apply sorted_cons_inv in H as [Hab H]. cbn [map] in *. constructor; [auto|]. constructor.
  apply Rmult_le_compat_r; [apply Rlt_le, Rinv_0_lt_compat, Hk|exact Hab].
Qed.
Lemma argmax_in x : forall y bx best, In (argmax_from bx best x y) (bx :: x).
Proof.
  induction x as [|a x IH]; intros y bx best; [left; reflexivity|]. destruct y as [|fa y]; [left; reflexivity|]. cbn [argmax_from].
  destruct (Rlt_dec best fa); [right; apply IH|]. destruct (IH y bx best) as [E|E]; [left; exact E|right; right; exact E].
Qed.
Lemma sorted_in_bounds x v : Sorted Rle x -> In v x -> hd 0 x <= v <= last x 0.
Proof.
  induction x as [|a [|b x] IH]; intros H Hin; [destruct Hin|destruct Hin as [->|[]]; cbn; lra|].
  pose proof (sorted_le_last a (b :: x) H) as Hl. apply sorted_cons_inv in H as [Hab H]. rewrite last_cons in *. cbn [hd] in *.
  destruct Hin as [->|Hin]; [lra|]. specialize (IH H Hin). lra.
Qed.

Lemma mk_numerical_spec x y c : table x y -> (forall v, c = Some v -> first_of x <= v <= last_of x) ->
  exists d cdf, mk_numerical x y c = Ok d /\ nx d = x /\ ny d = y /\ (forall v, c = Some v -> ncentral d = v) /\
    first_of x <= ncentral d <= last_of x /\
    ny_norm d = Some (map (fun v => v * / trapz x y) y) /\ 0 < trapz x y /\
    ncdf d = Some cdf /\ length cdf = length x /\ hd 0 cdf = 0 /\ last cdf 0 = 1 /\ Sorted Rle cdf.
Proof.
  intros (Hl & Hx & Hy & i & Hi & Hp) Hc. pose proof (trapz_pos x y i Hl Hx Hy Hi Hp) as Ht.
  destruct x as [|x0 x']; [cbn in *; lia|]. destruct y as [|y0 y']; [cbn in *; lia|]. set (x := x0 :: x') in *. set (y := y0 :: y') in *.
  set (T := trapz x y) in *.
  assert (Hmap : map (fun v => if Rlt_dec (v / T) 0 then 0 else v / T) y = map (fun v => v * / T) y).
  { apply map_ext_in. intros v Hv. rewrite Forall_forall in Hy. specialize (Hy v Hv). destruct (Rlt_dec (v / T) 0) as [Hn|]; [|reflexivity].
    exfalso. assert (0 <= v / T) by (apply Rmult_le_pos; [lra|]; apply Rlt_le, Rinv_0_lt_compat, Ht). lra. }
  assert (Hyn : Forall (fun v => 0 <= v) (map (fun v => v * / T) y)).
  { apply Forall_forall. intros v Hv. apply in_map_iff in Hv as (w & <- & Hw). rewrite Forall_forall in Hy.
    apply Rmult_le_pos; [apply Hy, Hw|]. apply Rlt_le, Rinv_0_lt_compat, Ht. }
  destruct (cumulate_spec x (map (fun v => v * / T) y) 0 ltac:(rewrite map_length; exact Hl) Hx Hyn ltac:(discriminate)) as (C1 & C2 & C3 & C4).
  set (cum := cumulate 0 x (map (fun v => v * / T) y)) in *.
  assert (Hlast : 0 < last cum 0).
  { apply (C4 i); [rewrite map_length; exact Hi|]. change 0 with (0 * / T) at 2 || idtac.
    rewrite (nth_indep _ 0 (0 * / T)) by (rewrite map_length; lia). rewrite (map_nth (fun v => v * / T)).
    apply Rmult_lt_0_compat; [exact Hp|]. apply Rinv_0_lt_compat, Ht. }
  assert (Hcum : cum <> []) by (destruct cum; [discriminate|discriminate]).
  assert (Hcen : exists cv, match c with
     | Some c => if Rle_dec x0 c then if Rle_dec c (last x 0) then Ok c else Err ValueError else Err ValueError
     | None => Ok (argmax_from x0 y0 x' y') end = Ok cv /\ first_of x <= cv <= last_of x /\ (forall v, c = Some v -> cv = v)).
  { rewrite last_of_eq. destruct c as [c|].
    - specialize (Hc c eq_refl). rewrite last_of_eq in Hc. exists c. unfold first_of in *. cbn [nth x] in *.
      destruct (Rle_dec x0 c); [|lra]. destruct (Rle_dec c (last x 0)); [|lra]. split; [reflexivity|]. split; [lra|]. intros v E. congruence.
    - eexists. split; [reflexivity|]. split; [|discriminate]. rewrite first_of_eq. apply sorted_in_bounds; [apply sorted_lt_le, Hx|apply argmax_in]. }
  destruct Hcen as (cv & Ecv & Hcv & Hcv').
  exists {| nx := x; ny := y; ncentral := cv; ny_norm := Some (map (fun v => v * / T) y); ncdf := Some (map (fun v => v / last cum 0) cum) |}.
  exists (map (fun v => v / last cum 0) cum). repeat split; cbn [nx ny ncentral ny_norm ncdf]; auto; try lra.
  - unfold mk_numerical. unfold x at 1, y at 1. fold x y.
    replace (match y with [] => Err ValueError | y0 :: y' => Ok (argmax_from x0 y0 x' y') end) with (Ok (argmax_from x0 y0 x' y')) by reflexivity.
    rewrite Ecv. cbn [bind]. rewrite Hl, Nat.eqb_refl. cbn [negb]. fold T. destruct (Req_EM_T T 0); [lra|]. rewrite Hmap. fold cum.
    destruct (Req_EM_T (last cum 0) 0); [lra|]. reflexivity.
  - rewrite map_length. exact C1.
  - destruct cum as [|c0 cs]; [congruence|]. cbn [hd map] in *. subst c0. unfold Rdiv. ring.
  - rewrite last_map by exact Hcum. field. lra.
  - apply sorted_map_div; assumption.
Qed.

Section Good.
  Variables (x y : list R) (d : numdist) (cdf : list R).
  Hypothesis Hl : length x = length y.
  Hypothesis Hx : Sorted Rlt x.
  Hypothesis Hne : x <> [].
  Hypothesis Hy : Forall (fun v => 0 <= v) y.
  Hypothesis Ht : 0 < trapz x y.
  Hypothesis Enx : nx d = x.
  Hypothesis Eyn : ny_norm d = Some (map (fun v => v * / trapz x y) y).
  Hypothesis Ecdf : ncdf d = Some cdf.
  Hypothesis Lcdf : length cdf = length x.
  Hypothesis H0 : hd 0 cdf = 0.
  Hypothesis H1 : last cdf 0 = 1.
  Hypothesis Hs : Sorted Rle cdf.

  Lemma interp_in (xp fp : list R) t : xp <> [] -> hd 0 xp <= t <= last xp 0 -> interp xp fp t = Some (interp_from xp fp t).
  Proof. destruct xp as [|a xp]; [congruence|]. intros _ Hr. unfold interp. cbn [hd] in Hr. destruct (Rlt_dec t a); [lra|]. destruct (Rlt_dec (last (a :: xp) 0) t); [lra|reflexivity]. Qed.
  Lemma interp_out (xp fp : list R) t : t < hd 0 xp \/ last xp 0 < t -> interp xp fp t = None.
  Proof. destruct xp as [|a xp]; [reflexivity|]. unfold interp. cbn [hd]. intro H. destruct (Rlt_dec t a); [reflexivity|]. destruct (Rlt_dec (last (a :: xp) 0) t); [reflexivity|lra]. Qed.
  Lemma cdf_ne : cdf <> [].
  Proof. intro E. rewrite E in H1. cbn in H1. lra. Qed.

  Lemma g_integral : is_RInt (density d) (first_of x) (last_of x) 1.
  Proof.
    rewrite first_of_eq, last_of_eq. replace 1 with (trapz x (map (fun v => v * / trapz x y) y)) by (rewrite trapz_scale; field; lra).
    eapply is_RInt_ext; [|apply interp_integral; [rewrite map_length; exact Hl|exact Hx|exact Hne]].
    intros t Hr. assert (hd 0 x <= last x 0) by (destruct x as [|a x']; [congruence|apply sorted_le_last, sorted_lt_le, Hx]).
    rewrite Rmin_left, Rmax_right in Hr by assumption.
    unfold density, npdf. rewrite Eyn, Enx, interp_in by (auto; lra). reflexivity.
  Qed.
  Lemma interp_nonneg xp : forall fp t, length xp = length fp -> Sorted Rle xp -> Forall (fun v => 0 <= v) fp -> hd 0 xp <= t -> 0 <= interp_from xp fp t.
  Proof.
    induction xp as [|a [|b xp] IH]; intros fp t Hlen Hxp Hfp Htt; [destruct fp; cbn; lra| |].
    - destruct fp as [|fa [|]]; try discriminate. inversion Hfp; subst. cbn. assumption.
    - destruct fp as [|fa [|fb fp]]; try discriminate. inversion Hfp as [|? ? Hfa Hfp']; subst. inversion Hfp' as [|? ? Hfb _]; subst.
      apply sorted_cons_inv in Hxp as [Hab Hxp]. cbn [hd] in Htt.
      change (interp_from (a :: b :: xp) (fa :: fb :: fp) t) with
        (if Rlt_dec t b then fa + (fb - fa) / (b - a) * (t - a) else interp_from (b :: xp) (fb :: fp) t).
      destruct (Rlt_dec t b).
      + replace (fa + (fb - fa) / (b - a) * (t - a)) with (fa * ((b - t) * / (b - a)) + fb * ((t - a) * / (b - a))) by (field; lra).
        assert (0 < / (b - a)) by (apply Rinv_0_lt_compat; lra).
        assert (0 <= (b - t) * / (b - a)) by (apply Rmult_le_pos; lra). assert (0 <= (t - a) * / (b - a)) by (apply Rmult_le_pos; lra).
        assert (0 <= fa * ((b - t) * / (b - a))) by (apply Rmult_le_pos; lra). assert (0 <= fb * ((t - a) * / (b - a))) by (apply Rmult_le_pos; lra). lra.
      + apply IH; auto. cbn; lra.
  Qed.
  Lemma g_density_nonneg t : 0 <= density d t.
  Proof.
    unfold density, npdf. rewrite Eyn, Enx. destruct (interp x _ t) as [v|] eqn:E; [|lra].
    destruct (Rlt_dec t (hd 0 x)) as [Ha|Ha]; [rewrite interp_out in E by auto; discriminate|].
    destruct (Rlt_dec (last x 0) t) as [Hb|Hb]; [rewrite interp_out in E by auto; discriminate|].
    rewrite interp_in in E by (auto; lra). injection E as <-. apply interp_nonneg; [rewrite map_length; exact Hl|apply sorted_lt_le, Hx| |lra].
    apply Forall_forall. intros v Hv. apply in_map_iff in Hv as (w & <- & Hw). rewrite Forall_forall in Hy.
    apply Rmult_le_pos; [apply Hy, Hw|]. apply Rlt_le, Rinv_0_lt_compat, Ht.
  Qed.
  Lemma g_density_out t : t < first_of x \/ last_of x < t -> density d t = 0.
  Proof. intro H. unfold density, npdf. rewrite Eyn, Enx, interp_out; [reflexivity|]. rewrite <- first_of_eq, <- last_of_eq. exact H. Qed.
  Lemma g_cdf t : first_of x <= t <= last_of x -> ncdf_at d t = Ok (interp_from x cdf t).
  Proof. intro H. unfold ncdf_at. rewrite Ecdf, Enx, interp_in; [reflexivity|exact Hne|]. rewrite <- first_of_eq, <- last_of_eq. exact H. Qed.
  Lemma g_cdf_first : interp_from x cdf (first_of x) = 0.
  Proof.
    rewrite first_of_eq. destruct x as [|a x']; [congruence|]. destruct cdf as [|c0 c']; [discriminate|]. cbn [hd] in *.
    rewrite interp_first; [exact H0|cbn in Lcdf; lia|exact Hx].
  Qed.
  Lemma g_cdf_last : interp_from x cdf (last_of x) = 1.
  Proof. rewrite last_of_eq. rewrite interp_last; [exact H1|auto|exact Hx|exact Hne]. Qed.
  Lemma g_cdf_mono t t' : first_of x <= t -> t <= t' -> interp_from x cdf t <= interp_from x cdf t'.
  Proof. intros Ha Hb. apply interp_mono; auto; [apply sorted_lt_le, Hx|rewrite <- first_of_eq; exact Ha]. Qed.
  Lemma g_ppf r : 0 <= r <= 1 -> exists q, nppf d r = Ok q /\ first_of x <= q <= last_of x /\ interp_from x cdf q = r.
  Proof.
    intro Hr. exists (interp_from cdf x r). split; [|split].
    - unfold nppf. rewrite Ecdf, Enx, interp_in; [reflexivity|exact cdf_ne|]. rewrite H0, H1. exact Hr.
    - rewrite first_of_eq, last_of_eq. apply interp_bounds; auto; [exact cdf_ne|apply sorted_lt_le, Hx|lra].
    - apply interp_inverse; auto. lra.
  Qed.
  Lemma g_ppf_mono r r' q q' : 0 <= r -> r <= r' -> r' <= 1 -> nppf d r = Ok q -> nppf d r' = Ok q' -> q <= q'.
  Proof.
    intros Ha Hb Hc. unfold nppf. rewrite Ecdf, Enx, !interp_in by (try exact cdf_ne; rewrite H0, H1; lra).
    intros E E'. injection E as <-. injection E' as <-. apply interp_mono; auto; [apply sorted_lt_le, Hx|lra].
  Qed.
End Good.
