From Coq Require Import Permutation.
From Verif Require Import Base BaseLemmas Citations_Model Citations_Spec.

(** ** Sorting *)
Fixpoint adj_sorted (l : list string) : Prop :=
  match l with
  | x :: ((y :: _) as l') => String.leb x y = true /\ adj_sorted l'
  | _ => True
  end.

Lemma insert_sorted x l : adj_sorted l -> adj_sorted (insert x l).
Proof.
  induction l as [|y l IH]; intro H; [exact I|]. cbn [insert].
  destruct (String.leb x y) eqn:E.
  - cbn [adj_sorted]. split; [exact E|exact H].
  - assert (Hyx : String.leb y x = true) by (destruct (String.leb_total x y); congruence).
    destruct l as [|z l].
    + cbn [insert adj_sorted]. auto.
    + destruct H as [H1 H2]. specialize (IH H2). cbn [insert] in *.
      destruct (String.leb x z); cbn [adj_sorted] in *; auto.
Qed.
Lemma sorted_sorted l : adj_sorted (sorted l).
Proof. induction l; [exact I|]. cbn [sorted]. now apply insert_sorted. Qed.
Lemma sorted_id l : adj_sorted l -> sorted l = l.
Proof.
  induction l as [|x l IH]; intro H; [reflexivity|]. cbn [sorted].
  destruct l as [|y l]; [reflexivity|]. destruct H as [H1 H2]. rewrite (IH H2).
  cbn [insert]. now rewrite H1.
Qed.
Lemma insert_perm x l : Permutation (insert x l) (x :: l).
Proof.
  induction l as [|y l IH]; cbn [insert]; [reflexivity|].
  destruct (String.leb x y); [reflexivity|]. rewrite IH. apply perm_swap.
Qed.
Lemma sorted_perm l : Permutation (sorted l) l.
Proof. induction l; [reflexivity|]. cbn [sorted]. now rewrite insert_perm, IHl. Qed.

(** ** Index dictionary and bit array *)
Lemma enum_keys n l : od_keys (enumerate_from n l) = l.
Proof.
  revert n; induction l as [|x l IH]; intro n; [reflexivity|].
  unfold od_keys in *. cbn [enumerate_from map fst]. now rewrite IH.
Qed.
Lemma enum_get k n l : od_get k (enumerate_from n l) = option_map (Nat.add n) (index_of k l).
Proof.
  revert n; induction l as [|x l IH]; intro n; [reflexivity|].
  cbn [enumerate_from od_get index_of]. destruct (eqb k x); cbn [option_map].
  - now rewrite Nat.add_0_r.
  - rewrite IH. destruct (index_of k l); cbn [option_map]; [f_equal; lia|reflexivity].
Qed.
Lemma enum_length n l : length (enumerate_from n l) = length l.
Proof. revert n; induction l; intro n; cbn; auto. Qed.
Lemma set_true_length i a : length (set_true i a) = length a.
Proof. revert i; induction a; intros [|i]; cbn; auto. Qed.

Lemma compress_In x l a : In x (compress l a) -> In x l.
Proof.
  revert a; induction l as [|y l IH]; intros [|[|] a]; cbn [compress In]; try tauto.
  - intros [H|H]; [now left|right; eauto].
  - intro H. right; eauto.
Qed.
Lemma compress_set_true k l a i : NoDup l -> length a = length l -> index_of k l = Some i ->
  forall x, In x (compress l (set_true i a)) <-> x = k \/ In x (compress l a).
Proof.
  revert a i; induction l as [|y l IH]; intros a i Hnd Hlen Hi x; [discriminate|].
  destruct a as [|b a]; [discriminate|]. inversion Hnd as [|? ? Hy Hnd']; subst.
  cbn [index_of] in Hi. destruct (eqb_spec k y) as [->|Hne].
  - injection Hi as <-. cbn [set_true compress]. destruct b; cbn [In]; intuition.
  - destruct (index_of k l) as [j|] eqn:Ej; [|discriminate]. injection Hi as <-.
    cbn [set_true compress]. specialize (IH a j Hnd' (eq_add_S _ _ Hlen) eq_refl x).
    destruct b; cbn [In]; rewrite IH; intuition.
Qed.
Lemma compress_false l n : compress l (repeat false n) = [].
Proof. revert n; induction l; intros [|n]; cbn; auto. Qed.

(** ** The object invariant *)
Definition wf (allowed defaults : list string) (c : citations) : Prop :=
  exists L, NoDup L /\ adj_sorted L /\ all_citations c = enumerate_from 0 L /\
    length (array c) = length L /\ (forall k, In k L <-> In k allowed) /\
    (forall k, In k (initial_citations c) <-> In k defaults) /\ incl defaults allowed.

Lemma cset_eq L c : adj_sorted L -> all_citations c = enumerate_from 0 L -> cset c = compress L (array c).
Proof. intros Hs He. unfold cset. rewrite He, enum_keys, sorted_id; auto. Qed.

Lemma register_ok A D c k : wf A D c -> In k A ->
  exists c', register c k = Some c' /\ wf A D c' /\ (forall x, In x (cset c') <-> x = k \/ In x (cset c)).
Proof.
  intros [L (Hnd & Hs & He & Hlen & HA & HD & Hincl)] Hk. unfold register. rewrite He, enum_get.
  destruct (index_of_In k L) as [i Hi]; [now apply HA|]. rewrite Hi. cbn [option_map Nat.add].
  eexists. split; [reflexivity|]. split.
  - exists L. cbn [all_citations array initial_citations]. rewrite set_true_length. auto 10.
  - intro x. erewrite !cset_eq by (try exact Hs; cbn [all_citations]; eauto). cbn [array].
    now apply compress_set_true.
Qed.
Lemma register_err A D c k : wf A D c -> ~ In k A -> register c k = None.
Proof.
  intros [L (Hnd & Hs & He & Hlen & HA & _)] Hk. unfold register. rewrite He, enum_get.
  destruct (index_of k L) eqn:E; [|reflexivity]. exfalso. apply Hk, HA.
  destruct (in_dec string_dec k L); [assumption|]. apply index_of_None in n0. congruence.
Qed.
Lemma register_all_ok A D ks c : wf A D c -> incl ks A ->
  exists c', register_all c ks = (c', true) /\ wf A D c' /\
    forall x, In x (cset c') <-> In x ks \/ In x (cset c).
Proof.
  revert c; induction ks as [|k ks IH]; intros c Hw Hin.
  - exists c. cbn. intuition.
  - destruct (register_ok A D c k Hw (Hin k (or_introl eq_refl))) as [c1 (E1 & W1 & S1)].
    destruct (IH c1 W1) as [c2 (E2 & W2 & S2)]; [intros x Hx; apply Hin; now right|].
    exists c2. cbn [register_all]. rewrite E1. split; [exact E2|]. split; [exact W2|].
    intro x. rewrite S2, S1. cbn [In]. intuition.
Qed.
Lemma clear_ok A D c : wf A D c -> wf A D (clear c) /\ cset (clear c) = [].
Proof.
  intros [L (Hnd & Hs & He & Hlen & HA)]. split.
  - exists L. cbn [clear all_citations array initial_citations]. rewrite repeat_length. auto 10.
  - erewrite cset_eq by (try exact Hs; cbn [clear all_citations]; eauto). apply compress_false.
Qed.
Lemma reset_ok A D c : wf A D c ->
  exists c', reset c = (c', true) /\ wf A D c' /\ forall x, In x (cset c') <-> In x D.
Proof.
  intro Hw. destruct (clear_ok A D c Hw) as [Wc Ec].
  pose proof Hw as [L (_ & _ & _ & _ & _ & HD & Hincl)].
  destruct (register_all_ok A D (initial_citations c) (clear c) Wc) as [c' (E & W & S)].
  { intros x Hx. apply Hincl, HD, Hx. }
  exists c'. split; [exact E|]. split; [exact W|]. intro x. rewrite S, Ec, HD. cbn [In]. intuition.
Qed.
Lemma init_ok known ini : exists c, init known ini = (c, true) /\ wf (known ++ ini) ini c /\
  forall x, In x (cset c) <-> In x ini.
Proof.
  unfold init. set (L := sorted (dedup (known ++ ini))).
  set (c0 := mkC (dedup ini) (enumerate_from 0 L) (repeat false (length (enumerate_from 0 L)))).
  assert (W0 : wf (known ++ ini) ini c0).
  { exists L. subst c0. cbn [all_citations array initial_citations]. rewrite repeat_length, enum_length.
    split. { eapply Permutation_NoDup; [symmetry; apply sorted_perm|apply dedup_NoDup]. }
    split; [apply sorted_sorted|]. split; [reflexivity|]. split; [reflexivity|].
    split.
    { intro k. rewrite <- (dedup_In k (known ++ ini)). split; apply Permutation_in; [|symmetry]; apply sorted_perm. }
    split; [intro k; apply dedup_In|]. apply incl_appr, incl_refl. }
  assert (E0 : cset c0 = []).
  { destruct W0 as [L' (_ & Hs & He & _)]. rewrite (cset_eq L' c0 Hs He). apply compress_false. }
  destruct (register_all_ok _ _ (dedup ini) c0 W0) as [c (E & W & S)].
  { intros x Hx. apply in_or_app. right. revert Hx. apply dedup_In. }
  exists c. split; [exact E|]. split; [exact W|]. intro x. rewrite S, E0, dedup_In. cbn [In]. intuition.
Qed.

(** ** Histories *)
Lemma do_call_wf A D c x : wf A D c -> wf A D (do_call c x).
Proof.
  intro W. destruct x as [k| |]; cbn [do_call].
  - destruct (in_dec string_dec k A) as [H|H].
    + destruct (register_ok A D c k W H) as [c' (-> & W' & _)]. exact W'.
    + now rewrite (register_err A D c k W H).
  - now apply clear_ok.
  - destruct (reset_ok A D c W) as [c' (-> & W' & _)]. exact W'.
Qed.
Lemma history_wf A D h c : wf A D c -> wf A D (history c h).
Proof. revert c; induction h as [|x h IH]; intros c W; [exact W|]. apply IH, do_call_wf, W. Qed.

Lemma snoc_split {T} (a b : T) h h1 h2 : h ++ [a] = h1 ++ b :: h2 ->
  (h2 = [] /\ h = h1 /\ a = b) \/ exists h2', h2 = h2' ++ [a] /\ h = h1 ++ b :: h2'.
Proof.
  intro E. destruct h2 as [|z h2] using rev_ind.
  - left. apply app_inj_tail in E. intuition congruence.
  - right. exists h2. change (b :: h2 ++ [z]) with ((b :: h2) ++ [z]) in E. rewrite app_assoc in E.
    apply app_inj_tail in E. destruct E as [-> ->]. auto.
Qed.

Lemma history_spec known D c h : wf (known ++ D) D c -> (forall x, In x (cset c) <-> In x D) ->
  forall k, In k (cset (history c h)) <-> cited_after known D h k.
Proof.
  intros W S. induction h as [|a h IH] using rev_ind; intro k.
  - cbn [history fold_left]. rewrite S. unfold cited_after. split.
    + intro H. right. split; [exact H|]. left. intros [].
    + intros [[_ [h1 [h2 [E _]]]]|[H _]]; [now destruct h1|exact H].
  - unfold history in *. rewrite fold_left_app. cbn [fold_left].
    set (c1 := fold_left do_call h c) in *.
    assert (W1 : wf (known ++ D) D c1) by (apply (history_wf _ _ h c W)).
    destruct a as [k0| |]; cbn [do_call].
    + assert (Hin : In k (cset match register c1 k0 with Some c' => c' | None => c1 end) <->
                    (k = k0 /\ In k0 (known ++ D)) \/ In k (cset c1)).
      { destruct (in_dec string_dec k0 (known ++ D)) as [H|H].
        - destruct (register_ok _ _ c1 k0 W1 H) as [c' (-> & _ & S')]. rewrite S'. intuition.
        - rewrite (register_err _ _ c1 k0 W1 H). intuition. }
      rewrite Hin, IH. unfold cited_after. clear Hin IH. split.
      * intros [[-> H]|[[H [h1 [h2 (-> & N1 & N2)]]]|[H H']]].
        -- left. split; [exact H|]. exists h, []. split; [reflexivity|]. split; intros [].
        -- left. split; [exact H|]. exists h1, (h2 ++ [CRegister k0]). split; [now rewrite <- app_assoc|].
           split; intro Q; apply in_app_or in Q; destruct Q as [Q|[Q|[]]]; auto; discriminate.
        -- right. split; [exact H|]. destruct H' as [H'|[h1 [h2 [-> N]]]].
           ++ left. intro Q. apply in_app_or in Q. destruct Q as [Q|[Q|[]]]; auto; discriminate.
           ++ right. exists h1, (h2 ++ [CRegister k0]). split; [now rewrite <- app_assoc|].
              intro Q; apply in_app_or in Q; destruct Q as [Q|[Q|[]]]; auto; discriminate.
      * intros [[H [h1 [h2 (E & N1 & N2)]]]|[H H']].
        -- apply snoc_split in E. destruct E as [(-> & -> & E)|[h2' [-> ->]]].
           ++ injection E as ->. left. split; [reflexivity|exact H].
           ++ right. left. split; [exact H|]. exists h1, h2'. split; [reflexivity|].
              split; intro Q; [apply N1|apply N2]; apply in_or_app; now left.
        -- right. right. split; [exact H|]. destruct H' as [H'|[h1 [h2 [E N]]]].
           ++ left. intro Q. apply H'. apply in_or_app; now left.
           ++ apply snoc_split in E. destruct E as [(-> & -> & E)|[h2' [-> ->]]]; [discriminate|].
              right. exists h1, h2'. split; [reflexivity|]. intro Q. apply N. apply in_or_app; now left.
    + destruct (clear_ok _ _ c1 W1) as [_ ->]. cbn [In]. unfold cited_after. split; [tauto|].
      intros [[H [h1 [h2 (E & N1 & N2)]]]|[H H']].
      * apply snoc_split in E. destruct E as [(_ & _ & E)|[h2' [-> ->]]]; [discriminate|].
        apply N1, in_or_app. right; now left.
      * destruct H' as [H'|[h1 [h2 [E N]]]].
        -- apply H', in_or_app. right; now left.
        -- apply snoc_split in E. destruct E as [(_ & _ & E)|[h2' [-> ->]]]; [discriminate|].
           apply N, in_or_app. right; now left.
    + destruct (reset_ok _ _ c1 W1) as [c' (-> & _ & S')]. cbn [fst]. rewrite S'. unfold cited_after. split.
      * intro H. right. split; [exact H|]. right. exists h, []. split; [reflexivity|]. intros [].
      * intros [[H [h1 [h2 (E & N1 & N2)]]]|[H H']]; [|exact H].
        apply snoc_split in E. destruct E as [(_ & _ & E)|[h2' [-> ->]]]; [discriminate|].
        exfalso. apply N2, in_or_app. right; now left.
Qed.

(** ** Programs and scopes *)
Lemma upd_nth {A} i (x : A) l : i < length l -> nth_error (upd i x l) i = Some x.
Proof. revert i; induction l as [|y l IH]; intros [|i] H; cbn in *; try lia; auto. apply IH; lia. Qed.
Lemma upd_other {A} i j (x : A) l : i <> j -> nth_error (upd i x l) j = nth_error l j.
Proof. revert i j; induction l as [|y l IH]; intros [|i] [|j] H; cbn; auto; lia. Qed.
Lemma upd_length {A} i (x : A) l : length (upd i x l) = length l.
Proof. revert i; induction l; intros [|i]; cbn; auto. Qed.

(** The simulation between heap programs and plain sets. *)
Lemma run_told known p : forall A D w c s,
  nth_error (heap w) (current w) = Some c -> wf A D c -> (forall k, In k (cset c) <-> In k s) ->
  exists c', let w' := fst (run known p w) in
    current w' = current w /\ length (heap w) <= length (heap w') /\
    (forall i, i < length (heap w) -> i <> current w -> nth_error (heap w') i = nth_error (heap w) i) /\
    nth_error (heap w') (current w) = Some c' /\ wf A D c' /\
    snd (run known p w) = snd (told known A D p s) /\
    (forall k, In k (cset c') <-> In k (fst (told known A D p s))).
Proof.
  induction p as [|k| | |k p IHp q IHq|e|p IHp q IHq|p IHp q IHq|p IHp]; intros A D w c s Hc W S; cbv zeta;
    assert (Hlt : current w < length (heap w)) by (apply nth_error_Some; congruence);
    cbn [run told]; try rewrite Hc.
  - exists c. cbn [fst snd]. auto 10.
  - destruct (in_dec string_dec k A) as [H|H].
    + destruct (register_ok A D c k W H) as [c' (-> & W' & S')].
      rewrite (proj2 (memb_In k A) H). exists c'. cbn [fst snd heap current].
      rewrite upd_length, upd_nth by assumption.
      repeat split; auto; try apply S'.
      * intros i _ Hi. apply upd_other. auto.
      * intro H'. apply S' in H'. destruct H' as [->|H']; [now left|right; now apply S].
      * intro H'. apply S'. destruct H' as [->|H']; [now left|right; now apply S].
    + rewrite (register_err A D c k W H). rewrite (proj2 (memb_notIn k A) H).
      exists c. cbn [fst snd]. auto 10.
  - destruct (clear_ok A D c W) as [W' E]. exists (clear c). cbn [fst snd heap current].
    rewrite upd_length, upd_nth by assumption. repeat split; auto; rewrite ?E; cbn [In]; try tauto; try apply W'.
    intros i _ Hi. apply upd_other. auto.
  - destruct (reset_ok A D c W) as [c' (-> & W' & S')]. exists c'. cbn [fst snd heap current].
    rewrite upd_length, upd_nth by assumption. repeat split; auto; try apply S'.
    intros i _ Hi. apply upd_other. auto.
  - assert (E : memb k (cset c) = memb k s).
    { destruct (memb_spec k (cset c)), (memb_spec k s); auto; firstorder. }
    rewrite E. destruct (memb k s); [now apply (IHp A D w c s)|now apply (IHq A D w c s)].
  - exists c. cbn [fst snd]. auto 10.
  - destruct (IHp A D w c s Hc W S) as [c1 (C1 & L1 & P1 & N1 & W1 & O1 & S1)].
    destruct (run known p w) as [w1 o1]. destruct (told known A D p s) as [s1 o1'].
    cbn [fst snd] in *. subst o1'. destruct o1 as [e|].
    + exists c1. cbn [fst snd]. auto 10.
    + assert (N1' : nth_error (heap w1) (current w1) = Some c1) by now rewrite C1.
      destruct (IHq A D w1 c1 s1 N1' W1 S1) as [c2 (C2 & L2 & P2 & N2 & W2 & O2 & S2)].
      exists c2. rewrite C1 in *. repeat split; auto; try lia; try apply S2; try apply W2.
      intros i Hi Hne. rewrite P2 by lia. now apply P1.
  - destruct (IHp A D w c s Hc W S) as [c1 (C1 & L1 & P1 & N1 & W1 & O1 & S1)].
    destruct (run known p w) as [w1 o1]. destruct (told known A D p s) as [s1 o1'].
    cbn [fst snd] in *. subst o1'. destruct o1 as [e|].
    + assert (N1' : nth_error (heap w1) (current w1) = Some c1) by now rewrite C1.
      destruct (IHq A D w1 c1 s1 N1' W1 S1) as [c2 (C2 & L2 & P2 & N2 & W2 & O2 & S2)].
      exists c2. rewrite C1 in *. repeat split; auto; try lia; try apply S2; try apply W2.
      intros i Hi Hne. rewrite P2 by lia. now apply P1.
    + exists c1. cbn [fst snd]. auto 10.
  - destruct (init_ok known []) as [c0 (E0 & W0 & S0)]. rewrite app_nil_r in W0. rewrite E0. cbn [fst].
    set (w0 := mkW (heap w ++ [c0]) (length (heap w))).
    assert (N0 : nth_error (heap w0) (current w0) = Some c0).
    { subst w0. cbn [heap current]. rewrite nth_error_app2, Nat.sub_diag by lia. reflexivity. }
    destruct (IHp known [] w0 c0 [] N0 W0 S0) as [c1 (C1 & L1 & P1 & N1 & W1 & O1 & S1)].
    destruct (run known p w0) as [w1 o1]. cbn [fst snd heap current] in *.
    assert (Hl : length (heap w0) = Datatypes.S (length (heap w))) by (subst w0; cbn; rewrite app_length; cbn; lia).
    assert (Hpre : forall i, i < length (heap w) -> nth_error (heap w1) i = nth_error (heap w) i).
    { intros i Hi. rewrite P1 by (subst w0; cbn in *; lia). subst w0. cbn [heap]. apply nth_error_app1. exact Hi. }
    exists c. repeat split; auto; try lia; try apply S.
    rewrite Hpre by assumption. exact Hc.
Qed.

(** The collected object of a scope. *)
Lemma collect_told known p w :
  let w' := fst (run known (Collect p) w) in
  current w' = current w /\
  (forall i, i < length (heap w) -> nth_error (heap w') i = nth_error (heap w) i) /\
  snd (run known (Collect p) w) = snd (told known known [] p []) /\
  exists c, nth_error (heap w') (length (heap w)) = Some c /\
    forall k, In k (cset c) <-> In k (fst (told known known [] p [])).
Proof.
  cbn [run]. destruct (init_ok known []) as [c0 (E0 & W0 & S0)]. rewrite app_nil_r in W0. rewrite E0. cbn [fst].
  set (w0 := mkW (heap w ++ [c0]) (length (heap w))).
  assert (N0 : nth_error (heap w0) (current w0) = Some c0).
  { subst w0. cbn [heap current]. rewrite nth_error_app2, Nat.sub_diag by lia. reflexivity. }
  destruct (run_told known p known [] w0 c0 [] N0 W0 S0) as [c1 (C1 & L1 & P1 & N1 & W1 & O1 & S1)].
  destruct (run known p w0) as [w1 o1]. cbn [fst snd heap current] in *.
  split; [reflexivity|]. split.
  { intros i Hi. rewrite P1; [|subst w0; cbn; rewrite app_length; cbn; lia|subst w0; cbn; lia].
    subst w0. cbn [heap]. now apply nth_error_app1. }
  split; [exact O1|]. exists c1. split; [exact N1|exact S1].
Qed.

(** Which keys a straight program registers: everything told is allowed. *)
Lemma told_allowed known A D p : forall s, incl D A -> incl s A -> incl (fst (told known A D p s)) A.
Proof.
  induction p as [|k| | |k p IHp q IHq|e|p IHp q IHq|p IHp q IHq|p IHp]; intros s HD Hs; cbn [told]; auto.
  - destruct (memb_spec k A); cbn [fst]; [|assumption]. intros x [<-|Hx]; auto.
  - cbn. intros x [].
  - destruct (memb k s); auto.
  - specialize (IHp s HD Hs). destruct (told known A D p s) as [s1 [e|]]; cbn [fst] in *; auto.
  - specialize (IHp s HD Hs). destruct (told known A D p s) as [s1 [e|]]; cbn [fst] in *; auto.
Qed.
