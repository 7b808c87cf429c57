(** * Lemmas about the shared vocabulary of Base.v *)
From Verif Require Import Base.
Set Implicit Arguments.

Lemma eqb_refl {A} `{Eqb A} (x : A) : eqb x x = true.
Proof. destruct (eqb_spec x x); congruence. Qed.
Lemma eqb_true {A} `{Eqb A} (x y : A) : eqb x y = true -> x = y.
Proof. destruct (eqb_spec x y); congruence. Qed.
Lemma eqb_false {A} `{Eqb A} (x y : A) : eqb x y = false -> x <> y.
Proof. destruct (eqb_spec x y); congruence. Qed.
Lemma neq_eqb {A} `{Eqb A} (x y : A) : x <> y -> eqb x y = false.
Proof. destruct (eqb_spec x y); congruence. Qed.
Lemma eqb_sym {A} `{Eqb A} (x y : A) : eqb x y = eqb y x.
Proof. destruct (eqb_spec x y), (eqb_spec y x); congruence. Qed.

Lemma memb_In {A} `{Eqb A} (x : A) l : memb x l = true <-> In x l.
Proof.
  unfold memb. rewrite existsb_exists. split.
  - intros [y [Hy He]]. apply eqb_true in He. subst; exact Hy.
  - intro Hi. exists x. split; [exact Hi|apply eqb_refl].
Qed.
Lemma memb_notIn {A} `{Eqb A} (x : A) l : memb x l = false <-> ~ In x l.
Proof. rewrite <- memb_In. destruct (memb x l); split; congruence. Qed.
Lemma memb_spec {A} `{Eqb A} (x : A) l : reflect (In x l) (memb x l).
Proof. apply iff_reflect. symmetry. apply memb_In. Qed.

Lemma index_of_None {A} `{Eqb A} (x : A) l : index_of x l = None <-> ~ In x l.
Proof.
  induction l as [|y l IH]; cbn; [tauto|].
  destruct (eqb_spec x y) as [->|ne].
  - split; [discriminate|tauto].
  - destruct (index_of x l); cbn; split; try discriminate; intuition congruence.
Qed.
Lemma index_of_Some {A} `{Eqb A} (x : A) l i :
  index_of x l = Some i -> nth_error l i = Some x /\ (forall j, j < i -> nth_error l j <> Some x).
Proof.
  revert i; induction l as [|y l IH]; cbn; [discriminate|]; intros i.
  destruct (eqb_spec x y) as [->|ne].
  - intros [= <-]. split; [reflexivity|lia].
  - destruct (index_of x l) as [k|]; cbn; [|discriminate]. intros [= <-].
    destruct (IH k eq_refl) as [H1 H2]. split; [exact H1|].
    intros [|j] Hj; cbn; [congruence|]. apply H2; lia.
Qed.
Lemma index_of_In {A} `{Eqb A} (x : A) l : In x l -> exists i, index_of x l = Some i.
Proof.
  intro Hi. destruct (index_of x l) eqn:E; [eauto|]. apply index_of_None in E. tauto.
Qed.
Lemma index_of_NoDup {A} `{Eqb A} (x : A) l i :
  NoDup l -> nth_error l i = Some x -> index_of x l = Some i.
Proof.
  intros Hnd Hn.
  destruct (index_of_In x l) as [j Hj]; [eapply nth_error_In; eauto|].
  rewrite Hj. f_equal. apply index_of_Some in Hj as [Hj _].
  eapply NoDup_nth_error; eauto.
  - apply nth_error_Some. congruence.
  - congruence.
Qed.

Section ODL.
  Context {K V : Type} `{Eqb K}.
  Implicit Types (d : od K V) (k : K) (v : V).

  Lemma od_get_set k k' v d :
    od_get k (od_set k' v d) = if eqb k k' then Some v else od_get k d.
  Proof.
    induction d as [|[k0 v0] d IH]; cbn; [reflexivity|].
    destruct (eqb_spec k' k0) as [->|ne]; cbn.
    - destruct (eqb_spec k k0); reflexivity.
    - rewrite IH. destruct (eqb_spec k k0) as [->|]; [|reflexivity].
      destruct (eqb_spec k0 k') ; [congruence|reflexivity].
  Qed.
  Lemma od_get_set_eq k v d : od_get k (od_set k v d) = Some v.
  Proof. rewrite od_get_set, eqb_refl. reflexivity. Qed.
  Lemma od_get_set_ne k k' v d : k <> k' -> od_get k (od_set k' v d) = od_get k d.
  Proof. intro Hne. rewrite od_get_set. apply neq_eqb in Hne. rewrite Hne. reflexivity. Qed.

  Lemma od_get_None k d : od_get k d = None <-> ~ In k (od_keys d).
  Proof.
    induction d as [|[k0 v0] d IH]; cbn; [tauto|].
    destruct (eqb_spec k k0) as [->|ne]; [split; [discriminate|tauto]|].
    rewrite IH. intuition congruence.
  Qed.
  Lemma od_get_Some_In k v d : od_get k d = Some v -> In (k, v) d.
  Proof.
    induction d as [|[k0 v0] d IH]; cbn; [discriminate|].
    destruct (eqb_spec k k0) as [->|ne]; [intros [= ->]; left; reflexivity|auto].
  Qed.
  Lemma od_get_In_keys k v d : od_get k d = Some v -> In k (od_keys d).
  Proof. intro E. apply od_get_Some_In in E. apply (in_map fst) in E. exact E. Qed.
  Lemma od_mem_In k d : od_mem k d = true <-> In k (od_keys d).
  Proof.
    unfold od_mem. destruct (od_get k d) eqn:E.
    - split; [|reflexivity]. intros _. eapply od_get_In_keys; eauto.
    - apply od_get_None in E. split; [discriminate|tauto].
  Qed.
  Lemma od_In_get k v d : NoDup (od_keys d) -> In (k, v) d -> od_get k d = Some v.
  Proof.
    induction d as [|[k0 v0] d IH]; cbn; [tauto|].
    intros Hnd Hin. inversion Hnd as [|? ? Hni Hnd']; subst.
    destruct Hin as [[= -> ->]|Hin].
    - rewrite eqb_refl. reflexivity.
    - destruct (eqb_spec k k0) as [->|ne]; [|auto].
      exfalso. apply Hni. apply (in_map fst) in Hin. exact Hin.
  Qed.

  Lemma od_keys_set k v d :
    od_keys (od_set k v d) = if memb k (od_keys d) then od_keys d else od_keys d ++ [k].
  Proof.
    unfold memb. induction d as [|[k0 v0] d IH]; cbn; [reflexivity|].
    destruct (eqb_spec k k0) as [->|ne]; cbn; [reflexivity|].
    unfold od_keys in IH. rewrite IH. destruct (existsb _ _); reflexivity.
  Qed.
  Lemma od_set_new k v d : ~ In k (od_keys d) -> od_set k v d = d ++ [(k, v)].
  Proof.
    induction d as [|[k0 v0] d IH]; cbn; [reflexivity|]. intro Hni.
    destruct (eqb_spec k k0) as [->|ne]; [tauto|]. rewrite IH; tauto.
  Qed.
  Lemma od_keys_set_In k k' v d : In k (od_keys (od_set k' v d)) <-> k = k' \/ In k (od_keys d).
  Proof.
    rewrite od_keys_set. destruct (memb_spec k' (od_keys d)) as [Hi|Hn].
    - split; [tauto|]. intros [->|]; tauto.
    - rewrite in_app_iff. cbn. intuition congruence.
  Qed.
  Lemma NoDup_snoc {A} (l : list A) (x : A) : NoDup l -> ~ In x l -> NoDup (l ++ [x]).
  Proof.
    intros Hnd Hni. induction l as [|y l IH]; cbn; [constructor; auto|].
    inversion Hnd; subst. constructor.
    - rewrite in_app_iff. cbn. cbn in Hni. intuition congruence.
    - apply IH; auto. cbn in Hni. tauto.
  Qed.
  Lemma od_set_NoDup k v d : NoDup (od_keys d) -> NoDup (od_keys (od_set k v d)).
  Proof.
    intro Hnd. rewrite od_keys_set. destruct (memb_spec k (od_keys d)); [exact Hnd|].
    apply NoDup_snoc; assumption.
  Qed.

  Lemma od_keys_pop k d :
    NoDup (od_keys d) -> od_keys (od_pop k d) = filter (fun x => negb (eqb k x)) (od_keys d).
  Proof.
    induction d as [|[k0 v0] d IH]; cbn; [reflexivity|]. intro Hnd.
    inversion Hnd as [|? ? Hni Hnd']; subst.
    destruct (eqb_spec k k0) as [->|ne]; cbn.
    - assert (Hf : forall l, ~ In k0 l -> filter (fun x => negb (eqb k0 x)) l = l).
      { induction l as [|y l IHl]; cbn; [reflexivity|]. intro Hl.
        destruct (eqb_spec k0 y) as [->|]; cbn; [tauto|]. rewrite IHl; tauto. }
      symmetry. apply Hf. exact Hni.
    - unfold od_keys in IH. rewrite IH; auto.
  Qed.
  Lemma od_pop_keys_incl k k' d : In k' (od_keys (od_pop k d)) -> In k' (od_keys d).
  Proof.
    induction d as [|[k0 v0] d IH]; cbn; [tauto|].
    destruct (eqb_spec k k0); cbn; tauto.
  Qed.
  Lemma od_pop_NoDup k d : NoDup (od_keys d) -> NoDup (od_keys (od_pop k d)).
  Proof.
    induction d as [|[k0 v0] d IH]; cbn; [auto|]. intro Hnd.
    inversion Hnd as [|? ? Hni Hnd']; subst.
    destruct (eqb_spec k k0) as [->|ne]; cbn; [exact Hnd'|].
    constructor; auto. intro Hi. apply od_pop_keys_incl in Hi. tauto.
  Qed.
  Lemma od_get_pop_eq k d : NoDup (od_keys d) -> od_get k (od_pop k d) = None.
  Proof.
    intro Hnd. apply od_get_None. rewrite od_keys_pop; auto.
    rewrite filter_In. rewrite eqb_refl. cbn. intuition discriminate.
  Qed.
  Lemma od_get_pop_ne k k' d : k <> k' -> od_get k (od_pop k' d) = od_get k d.
  Proof.
    intro Hne. induction d as [|[k0 v0] d IH]; cbn; [reflexivity|].
    destruct (eqb_spec k' k0) as [->|ne]; cbn.
    - destruct (eqb_spec k k0); [congruence|reflexivity].
    - rewrite IH. reflexivity.
  Qed.
  Lemma od_get_pop k k' d : NoDup (od_keys d) ->
    od_get k (od_pop k' d) = if eqb k k' then None else od_get k d.
  Proof.
    intro Hnd. destruct (eqb_spec k k') as [->|ne].
    - apply od_get_pop_eq; auto.
    - apply od_get_pop_ne; auto.
  Qed.
  Lemma od_pop_none k d : ~ In k (od_keys d) -> od_pop k d = d.
  Proof.
    induction d as [|[k0 v0] d IH]; cbn; [reflexivity|]. intro Hni.
    destruct (eqb_spec k k0) as [->|ne]; [tauto|]. rewrite IH; tauto.
  Qed.
End ODL.

Lemma dedup_In {A} `{Eqb A} (x : A) l : In x (dedup l) <-> In x l.
Proof.
  induction l as [|y l IH]; cbn; [tauto|].
  rewrite filter_In, IH. destruct (eqb_spec y x) as [->|ne]; cbn; intuition congruence.
Qed.
Lemma NoDup_filter' {A} (f : A -> bool) l : NoDup l -> NoDup (filter f l).
Proof.
  induction 1 as [|x l Hni Hnd IH]; cbn; [constructor|].
  destruct (f x); [constructor; auto; rewrite filter_In; tauto|exact IH].
Qed.
Lemma dedup_NoDup {A} `{Eqb A} (l : list A) : NoDup (dedup l).
Proof.
  induction l as [|y l IH]; cbn; [constructor|]. constructor.
  - rewrite filter_In, eqb_refl. cbn. intuition discriminate.
  - apply NoDup_filter'. exact IH.
Qed.

Lemma mapM_Ok {A B} (f : A -> result B) l ys :
  mapM f l = Ok ys <-> Forall2 (fun x y => f x = Ok y) l ys.
Proof.
  revert ys; induction l as [|x l IH]; intros ys; cbn.
  - split; [intros [= <-]; constructor|inversion 1; reflexivity].
  - split.
    + destruct (f x) as [y|] eqn:E; cbn; [|discriminate].
      destruct (mapM f l) as [ys'|] eqn:E'; cbn; [|discriminate].
      intros [= <-]. constructor; [exact E|]. apply IH. reflexivity.
    + inversion 1 as [|? y ? ys' Hy Hys]; subst. rewrite Hy. cbn.
      apply IH in Hys. rewrite Hys. reflexivity.
Qed.
Lemma mapM_total {A B} (f : A -> result B) l :
  (forall x, In x l -> exists y, f x = Ok y) -> exists ys, mapM f l = Ok ys.
Proof.
  induction l as [|x l IH]; cbn; intro Hf; [eauto|].
  destruct (Hf x) as [y Hy]; [auto|]. rewrite Hy. cbn.
  destruct IH as [ys Hys]; [auto|]. rewrite Hys. cbn. eauto.
Qed.

(** A dictionary comprehension [{k: f(k, v) for k, v in d.items()}] that never raises. *)
Lemma mapM_dict {K A B} `{Eqb K} (f : K * A -> result (K * B)) (R : K -> A -> B -> Prop) (d : od K A) :
  (forall k a, In (k, a) d -> exists b, f (k, a) = Ok (k, b) /\ R k a b) ->
  exists d', mapM f d = Ok d' /\ od_keys d' = od_keys d /\
    forall k, match od_get k d with
              | Some a => exists b, od_get k d' = Some b /\ R k a b
              | None => od_get k d' = None
              end.
Proof.
  induction d as [|[k0 a0] d IH]; intro Hf; cbn [mapM].
  - exists []. cbn. auto.
  - destruct (Hf k0 a0) as [b0 [E0 R0]]; [left; reflexivity|].
    destruct IH as [d' [E' [Hk Hg]]]; [intros; apply Hf; right; assumption|].
    rewrite E0. cbn [bind]. rewrite E'. cbn [bind]. exists ((k0, b0) :: d'). split; [reflexivity|].
    split; [cbn; unfold od_keys in Hk; congruence|].
    intro k. cbn [od_get]. destruct (eqb_spec k k0) as [->|ne]; [eauto|apply Hg].
Qed.
