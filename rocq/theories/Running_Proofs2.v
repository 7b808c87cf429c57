From Coq Require Import Reals Lra.
From Verif Require Import Base BaseLemmas Running_Model Running_Spec Running_Proofs.
Local Open Scope R_scope.

Section P.
  Context {Y D : Type}.
  Variable evolve : D -> nat -> R -> R -> Y -> Y.

  (** *** nf_out when running down *)
  Lemma down_nf_out t (y : Y) d a b n :
    ordered t -> 0.1 <= b -> b < enters t n a -> lower t n < a -> (3 <= n <= 6)%nat ->
    exists l, leads a (enters t n a) l /\ Forall (step_active t) l /\ changes l /\
      evolve_sm_body evolve t y d a b (Some n) = Ok (evolve d n (enters t n a) b (run_steps (evolve d) l y)).
  Proof.
    intros (H1 & H2 & H3) Hb He Hl Hn. unfold evolve_sm_body.
    destruct t as [mc mb mt]. cbn [t_mc t_mb t_mt] in *.
    assert (Hab : b < a). { revert He. destruct n as [|[|[|[|[|[|n]]]]]]; cbn; unfold Rmin; dest. }
    destruct (Rgt_dec a b); [|lra].
    assert (A4 : forall x y, mc <= x -> x < y -> y <= mb -> step_active (mkT mc mb mt) (4%nat, y, x)).
    { intros. split; [lra|]. intros z. unfold Rmin, Rmax; dest. intros ?. right; left. cbn. split; [easy|lra]. }
    assert (A5 : forall x y, mb <= x -> x < y -> y <= mt -> step_active (mkT mc mb mt) (5%nat, y, x)).
    { intros. split; [lra|]. intros z. unfold Rmin, Rmax; dest. intros ?. right; right; left. cbn. split; [easy|lra]. }
    assert (A6 : forall x y, mt <= x -> x < y -> step_active (mkT mc mb mt) (6%nat, y, x)).
    { intros. split; [lra|]. intros z. unfold Rmin, Rmax; dest. intros ?. right; right; right. cbn. split; [easy|lra]. }
    assert (FF : forall (ls : list step) (r : result Y), leads a (enters (mkT mc mb mt) n a) ls -> Forall (step_active (mkT mc mb mt)) ls -> changes ls ->
       r = Ok (evolve d n (enters (mkT mc mb mt) n a) b (run_steps (evolve d) ls y)) ->
       exists l, leads a (enters (mkT mc mb mt) n a) l /\ Forall (step_active (mkT mc mb mt)) l /\ changes l /\
         r = Ok (evolve d n (enters (mkT mc mb mt) n a) b (run_steps (evolve d) l y))).
    { intros. eexists; eauto. }
    assert (Hn' : n = 3%nat \/ n = 4%nat \/ n = 5%nat \/ n = 6%nat) by lia. clear Hn.
    destruct Hn' as [-> | [-> | [-> | ->]]];
    cbn [lower] in Hl; cbn [enters t_mc t_mb t_mt] in *;
    cbn [run_down threshold Nat.eqb Nat.ltb Nat.leb andb t_mc t_mb t_mt max_thr thr_or];
    unfold Rmax, Rmin, reqb in *; dest;
    match goal with |- exists l, _ /\ _ /\ _ /\ Ok ?r = _ =>
      lazymatch r with
      | evolve _ _ _ _ (evolve _ ?n3 ?a3 ?b3 (evolve _ ?n2 ?a2 ?b2 (evolve _ ?n1 ?a1 ?b1 y))) => apply (FF [(n1,a1,b1); (n2,a2,b2); (n3,a3,b3)])
      | evolve _ _ _ _ (evolve _ ?n2 ?a2 ?b2 (evolve _ ?n1 ?a1 ?b1 y)) => apply (FF [(n1,a1,b1); (n2,a2,b2)])
      | evolve _ _ _ _ (evolve _ ?n1 ?a1 ?b1 y) => apply (FF [(n1,a1,b1)])
      | evolve _ _ _ _ y => apply (FF [])
      end end; try reflexivity; try lra;
    try match goal with
    | |- leads _ _ _ => cbn [leads]; repeat apply conj; try reflexivity; try lra; first [left; lra|right; lra]
    | |- changes _ => cbn [changes]; repeat apply conj; easy
    | |- Forall _ _ => repeat apply Forall_cons; try apply Forall_nil; first [apply A4; lra|apply A5; lra|apply A6; lra]
    end; exfalso; lra.
  Qed.
  Lemma down_nf_out_ignored t (y : Y) d a b n : ordered t -> 0.1 <= b -> b < a -> (3 <= n <= 6)%nat ->
    enters t n a <= b \/ a <= lower t n ->
    evolve_sm_body evolve t y d a b (Some n) = evolve_sm_body evolve t y d a b None.
  Proof.
    intros (H1 & H2 & H3) Hb Hab Hn He. unfold evolve_sm_body. destruct (Rgt_dec a b); [|lra].
    destruct t as [mc mb mt]. cbn [t_mc t_mb t_mt] in *.
    assert (Hn' : n = 3%nat \/ n = 4%nat \/ n = 5%nat \/ n = 6%nat) by lia. clear Hn.
    destruct Hn' as [-> | [-> | [-> | ->]]]; cbn [lower enters t_mc t_mb t_mt] in He;
    cbn [run_down threshold Nat.eqb Nat.ltb Nat.leb andb t_mc t_mb t_mt max_thr thr_or];
    unfold Rmax, Rmin, reqb in *; dest; reflexivity.
  Qed.

  (** *** the cache *)
  Variable key_eqb : @key Y D -> @key Y D -> bool.
  Hypothesis key_ok : forall k k', key_eqb k k' = true <-> k = k'.
  Variable maxsize : nat.
  Let step_ := rstep evolve key_eqb maxsize.
  Definition body_of (t : thresholds) (k : @key Y D) : result Y := let '(y, d, a, b, n) := k in evolve_sm_body evolve t y d a b n.

  Definition inv (ts : list thresholds) (runs : @key Y D -> Prop) (st : @rstate Y D) : Prop :=
    In (rs_thr st) ts /\
    forall k l, In (k, l) (rs_cache st) -> runs k /\ exists v t, nth_error (rs_heap st) l = Some v /\ In t ts /\ body_of t k = Ok v.

  Lemma cache_put_In k v c k' v' : In (k', v') (cache_put key_eqb maxsize k v c) -> (k' = k /\ v' = v) \/ In (k', v') c.
  Proof.
    unfold cache_put. intros H.
    assert (In (k', v') ((k, v) :: filter (fun kv => negb (key_eqb k (fst kv))) c)).
    { rewrite <- (firstn_skipn maxsize). apply in_or_app. now left. }
    destruct H0 as [E|H0]; [left; injection E; auto|right]. apply filter_In in H0. easy.
  Qed.
  Lemma cache_get_In k c l : cache_get key_eqb k c = Some l -> In (k, l) c.
  Proof.
    unfold cache_get. intros H. destruct (find _ c) as [[k' l']|] eqn:E; [|easy]. cbn in H. injection H as ->.
    apply find_some in E. destruct E as [E1 E2]. cbn in E2. apply key_ok in E2. now subst k'.
  Qed.

  Lemma step_inv ts (runs : @key Y D -> Prop) st o : inv ts runs st -> no_overwrite o ->
    inv (ts ++ match o with SetThresholds t => [t] | _ => [] end)
        (fun k => runs k \/ match o with Run y d a b n => k = (y, d, a, b, n) | _ => False end) (fst (step_ st o)) /\
    (match o with
     | Run y d a b n => exists r, snd (step_ st o) = Some r /\
         (exists t, In t ts /\ r = fresh evolve t y d a b n) /\
         (~ runs (y, d, a, b, n) -> r = fresh evolve (rs_thr st) y d a b n)
     | _ => snd (step_ st o) = None end) /\
    rs_thr (fst (step_ st o)) = match o with SetThresholds t => t | _ => rs_thr st end.
  Proof.
    intros [I1 I2] Hno. destruct o as [t'|y d a b n|i y].
    - cbn. split; [|split; reflexivity]. split; [apply in_or_app; right; now left|].
      intros k l H. cbn in H. destruct (I2 _ _ H) as (Hr & v & t & ? & ? & ?). split; [now left|]. exists v, t. repeat split; auto. apply in_or_app; now left.
    - rewrite app_nil_r. unfold step_, rstep, rg_evolve_sm. cbn [fst snd].
      assert (Hold : forall k l h, In (k, l) (rs_cache st) -> (runs k \/ k = (y, d, a, b, n)) /\
           exists v t, nth_error (rs_heap st ++ h) l = Some v /\ In t ts /\ body_of t k = Ok v).
      { intros k l h H. destruct (I2 _ _ H) as (Hr & v & t & Hv & ? & ?). split; [now left|]. exists v, t. repeat split; auto.
        rewrite nth_error_app1; [assumption|]. apply nth_error_Some. congruence. }
      unfold fresh. destruct (Req_EM_T a b) as [E|E].
      + cbn [fst snd rs_thr rs_cache rs_heap]. split; [split; [exact I1|]|].
        * cbn [rs_cache rs_heap]. intros k l H. now apply Hold.
        * split; [|reflexivity]. exists (Ok y). rewrite nth_error_app2, Nat.sub_diag by lia. cbn. split; [easy|]. split; [|easy]. exists (rs_thr st). easy.
      + destruct (Rlt_dec b 0.1) as [Hb|Hb].
        * cbn [fst snd]. split; [split; [exact I1|]|].
          -- intros k l H. destruct (Hold k l [] H) as (? & v & t & Hv & ?). rewrite app_nil_r in Hv. split; [assumption|]. exists v, t. easy.
          -- split; [|easy]. exists (Err ValueError). split; [easy|]. split; [exists (rs_thr st); easy|easy].
        * destruct (cache_get key_eqb (y, d, a, b, n) (rs_cache st)) as [l|] eqn:C.
          -- cbn [fst snd rs_heap rs_thr rs_cache]. apply cache_get_In in C. destruct (I2 _ _ C) as (Hr & v & t & Hv & Ht & Hbody).
             split; [split; [exact I1|]|split; [|easy]].
             ++ cbn [rs_cache rs_heap]. intros k l' H. apply cache_put_In in H. destruct H as [[-> ->]|H].
                ** split; [now right|]. exists v, t. easy.
                ** destruct (Hold k l' [] H) as (? & v' & t' & Hv' & ?). rewrite app_nil_r in Hv'. split; [assumption|]. exists v', t'. easy.
             ++ rewrite Hv. exists (Ok v). split; [easy|]. split; [exists t; cbn in Hbody; easy|tauto].
          -- destruct (evolve_sm_body evolve (rs_thr st) y d a b n) as [v|e] eqn:B.
             ++ cbn [fst snd rs_heap rs_thr rs_cache]. split; [split; [exact I1|]|split; [|easy]].
                ** cbn [rs_cache rs_heap]. intros k l' H. apply cache_put_In in H. destruct H as [[-> ->]|H].
                   --- split; [now right|]. exists v, (rs_thr st). rewrite nth_error_app2, Nat.sub_diag by lia. easy.
                   --- now apply Hold.
                ** rewrite nth_error_app2, Nat.sub_diag by lia. cbn [nth_error]. exists (Ok v). split; [easy|]. split; [exists (rs_thr st); rewrite B; easy|easy].
             ++ cbn [fst snd]. split; [split; [exact I1|]|split; [|easy]].
                ** intros k l' H. destruct (Hold k l' [] H) as (? & v' & t' & Hv' & ?). rewrite app_nil_r in Hv'. split; [assumption|]. exists v', t'. easy.
                ** exists (Err e). split; [easy|]. split; [exists (rs_thr st); rewrite B; easy|easy].
    - exfalso. now apply (Hno i y).
  Qed.

  Lemma run_inv : forall ops ts (runs : @key Y D -> Prop) st, inv ts runs st -> Forall no_overwrite ops ->
    forall past y d a b n rest, ops = past ++ Run y d a b n :: rest ->
      exists r, nth_error (rrun evolve key_eqb maxsize st ops) (length past) = Some (Some r) /\
        (exists t, In t (ts ++ flat_map (fun o => match o with SetThresholds t' => [t'] | _ => [] end) past) /\ r = fresh evolve t y d a b n) /\
        (~ runs (y, d, a, b, n) -> ~ In (Run y d a b n) past ->
         r = fresh evolve (last (flat_map (fun o => match o with SetThresholds t' => [t'] | _ => [] end) past) (rs_thr st)) y d a b n).
  Proof.
    induction ops as [|o ops IH]; intros ts runs st HI Hno past y d a b n rest E; [destruct past; discriminate|].
    apply Forall_cons_iff in Hno. destruct Hno as [Hno1 Hno].
    destruct (step_inv ts runs st o HI Hno1) as (HI' & Hobs & Hthr).
    destruct past as [|o' past].
    - cbn in E. injection E as -> ->. cbn [length flat_map app last]. rewrite app_nil_r. destruct Hobs as (r & Hr & H1 & H2).
      exists r. cbn [rrun]. fold step_. destruct (step_ st (Run y d a b n)) as [st' r'] eqn:Es. cbn in Hr. subst r'. cbn. repeat split; auto.
    - cbn in E. injection E as <- E. destruct (IH _ _ _ HI' Hno past y d a b n rest E) as (r & Hr & (t & Ht & Hf) & Hlast).
      exists r. cbn [rrun length]. fold step_. destruct (step_ st o) as [st' r'] eqn:Es. cbn [nth_error]. cbn [fst] in *.
      split; [exact Hr|]. split.
      + exists t. split; [|exact Hf]. cbn [flat_map]. rewrite app_assoc. exact Ht.
      + intros Hn1 Hn2. cbn [flat_map]. rewrite Hlast.
        * rewrite Hthr. destruct o as [t'|? ? ? ? ?|? ?]; cbn [app]; try reflexivity.
          destruct (flat_map _ past) eqn:F; [reflexivity|]. cbn [last app]. clear. revert t0. induction l; intros; [reflexivity|apply IHl].
        * intros [H|H]; [easy|]. destruct o as [| y' d' a' b' n' |]; try easy. injection H as -> -> -> -> ->. apply Hn2. now left.
        * intros H. apply Hn2. now right.
  Qed.
End P.
