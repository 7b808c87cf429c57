(** * Proofs about Wilson-coefficient objects *)
From Verif Require Import Base BaseLemmas EFT_Model EFT_Spec.
Local Open Scope string_scope.

Lemma update_get {V} (l d : od string V) k : NoDup (od_keys l) -> od_get k (od_update d l) = match od_get k l with Some v => Some v | None => od_get k d end.
Proof.
  unfold od_update. revert d; induction l as [|[k0 v0] l IH]; intros d Hnd; cbn [fold_left fst snd od_get]; [reflexivity|].
  cbn in Hnd. inversion Hnd as [|? ? Hn Hd]; subst. rewrite IH by exact Hd. destruct (eqb_spec k k0) as [-> | n].
  - assert (E : od_get k0 l = None) by (apply od_get_None; exact Hn). rewrite E. apply od_get_set_eq.
  - destruct (od_get k l); [reflexivity|]. now apply od_get_set_ne.
Qed.
Lemma update_any {V} (l d : od string V) k : (od_get k (od_update d l) = None <-> od_get k l = None /\ od_get k d = None) /\
  (forall v, od_get k (od_update d l) = Some v -> In (k, v) l \/ (od_get k l = None /\ od_get k d = Some v)).
Proof.
  unfold od_update. revert d; induction l as [|[k0 v0] l IH]; intros d; cbn [fold_left fst snd od_get].
  - split; [tauto | intros v E; right; split; [reflexivity | exact E]].
  - destruct (IH (od_set k0 v0 d)) as (I1 & I2). split.
    + rewrite I1. rewrite od_get_set. destruct (eqb_spec k k0) as [-> | n]; [split; intros (E1 & E2); discriminate | tauto].
    + intros v E. destruct (I2 v E) as [i | (n & E')]; [left; right; exact i |]. rewrite od_get_set in E'. destruct (eqb_spec k k0) as [-> | ne].
      * injection E' as ->. left; left; reflexivity.
      * right. split; assumption.
Qed.
Lemma zeros_get {V} (z : V) (ks : list string) (k : string) : od_get k (od_of_list (map (fun k => (k, z)) ks)) = if memb k ks then Some z else None.
Proof.
  unfold od_of_list. destruct (update_any (map (fun k => (k, z)) ks) [] k) as (I1 & I2).
  destruct (memb_spec k ks) as [i | n].
  - destruct (od_get k (od_update [] _)) as [v |] eqn:E.
    + destruct (I2 v eq_refl) as [j | (_ & E')]; [| discriminate]. apply in_map_iff in j. destruct j as (x & Ex & _). congruence.
    + destruct (proj1 I1 eq_refl) as (E' & _). apply od_get_None in E'. exfalso. apply E'. unfold od_keys. rewrite map_map. apply in_map_iff. exists k. split; [reflexivity | exact i].
  - apply I1. split; [| reflexivity]. apply od_get_None. intros i. apply n. unfold od_keys in i. rewrite map_map in i. apply in_map_iff in i. destruct i as (x & <- & i). exact i.
Qed.
Lemma update_NoDup {V} (l d : od string V) : NoDup (od_keys d) -> NoDup (od_keys (od_update d l)).
Proof. unfold od_update. revert d; induction l as [|[k v] l IH]; intros d Hd; cbn [fold_left fst snd]; [exact Hd |]. apply IH. now apply od_set_NoDup. Qed.

(** ** the table of names *)
Definition same_table (a b : list (string * string)) : bool :=
  forallb (fun kv => memb kv b) a && forallb (fun kv => memb kv a) b && forallb (fun kv => forallb (fun kv' => negb (eqb (fst kv) (fst kv')) || eqb (snd kv) (snd kv')) a) a.
Lemma table_ok : same_table sectors_flavio2wcxf legacy = true.
Proof. vm_compute. reflexivity. Qed.
Lemma table_In kv : In kv sectors_flavio2wcxf <-> In kv legacy.
Proof.
  pose proof table_ok as T. unfold same_table in T. apply andb_prop in T. destruct T as (T & _). apply andb_prop in T. destruct T as (T1 & T2).
  rewrite forallb_forall in T1, T2. split; intros i; [apply T1 in i | apply T2 in i]; now apply memb_In.
Qed.
Lemma table_fun s a b : In (s, a) sectors_flavio2wcxf -> In (s, b) sectors_flavio2wcxf -> a = b.
Proof.
  intros i j. pose proof table_ok as T. unfold same_table in T. apply andb_prop in T. destruct T as (_ & T). rewrite forallb_forall in T. specialize (T _ i). rewrite forallb_forall in T. specialize (T _ j).
  cbn [fst snd] in T. rewrite eqb_refl in T. cbn [negb orb] in T. now apply eqb_true.
Qed.
Lemma translate_name s n : wcxf_name s n <-> translate s = n.
Proof.
  unfold wcxf_name, translate. destruct (od_get s sectors_flavio2wcxf) as [t |] eqn:E.
  - apply od_get_Some_In in E. split.
    + intros [i | (-> & no)]; [apply table_In in i; exact (table_fun _ _ _ E i) | exfalso; apply (no t); now apply table_In].
    + intros <-. left. now apply table_In.
  - assert (N : forall n, ~ In (s, n) legacy).
    { intros m i. apply table_In in i. apply od_get_None in E. apply E. unfold od_keys. apply in_map_iff. exists (s, m). split; [reflexivity | exact i]. }
    split; [intros [i | (-> & _)]; [exfalso; exact (N _ i) | reflexivity] | intros <-; right; split; [reflexivity | exact N]].
Qed.
Lemma translate_all s : translate s = "all" <-> s = "all".
Proof.
  split; [| intros ->; vm_compute; reflexivity]. unfold translate. destruct (od_get s sectors_flavio2wcxf) as [t |] eqn:E; [| auto]. intros ->. exfalso. apply od_get_Some_In in E.
  assert (Q : forallb (fun kv => negb (eqb (snd kv) "all")) sectors_flavio2wcxf = true) by (vm_compute; reflexivity). rewrite forallb_forall in Q. specialize (Q _ E). cbn [snd] in Q. rewrite eqb_refl in Q. discriminate.
Qed.
Lemma translate_twice s : translate (translate s) = translate s.
Proof.
  unfold translate at 2 3. destruct (od_get s sectors_flavio2wcxf) as [t |] eqn:E; [| unfold translate; rewrite E; reflexivity].
  apply od_get_Some_In in E. assert (Q : forallb (fun kv => eqb (translate (snd kv)) (snd kv)) sectors_flavio2wcxf = true) by (vm_compute; reflexivity).
  rewrite forallb_forall in Q. specialize (Q _ E). cbn [snd] in Q. now apply eqb_true.
Qed.

(** ** caches *)
Section Cache.
  Context {P K R : Type} `{Eqb P} `{Eqb K} (compute : P -> K -> R) (default : P).
  Definition good (h : @heap P K R) (o : obj) (p : P) : Prop := forall k r, od_get k (h_caches h (o_cache o)) = Some r -> r = compute p k.
  Lemma upd_eq {A} (f : nat -> A) n a : upd f n a n = a.
  Proof. unfold upd. rewrite Nat.eqb_refl. reflexivity. Qed.
  Lemma upd_ne {A} (f : nat -> A) n a m : m <> n -> upd f n a m = f m.
  Proof. intros ne. unfold upd. apply Nat.eqb_neq in ne. rewrite ne. reflexivity. Qed.
  Lemma run_good h o k p h1 r : good h o p -> get_option default h o = p -> run compute default h o k = (h1, r) ->
    r = compute p k /\ good h1 o p /\ (forall c, c <> o_cache o -> h_caches h1 c = h_caches h c) /\ h_options h1 = h_options h /\ h_next h1 = h_next h.
  Proof using.
    intros G E. unfold run. destruct (od_get k (h_caches h (o_cache o))) as [r' |] eqn:F.
    - intros [= <- <-]. refine (conj (G _ _ F) (conj G _)). repeat split.
    - intros [= <- <-]. rewrite E. cbn [h_caches h_options h_next]. refine (conj eq_refl (conj _ (conj _ (conj eq_refl eq_refl)))).
      + intros k' r' . cbn [h_caches]. rewrite upd_eq. rewrite od_get_set. destruct (eqb_spec k' k) as [-> | n]; [intros [= <-]; reflexivity | apply G].
      + intros c n. now apply upd_ne.
  Qed.
  (** the invariant while both dictionaries are changed in place *)
  Section InPlace.
    Lemma both_step h w par k : good h w (get_option default h w) -> exists h2,
      step compute default true true (h, w) (Predict par k) = ((h2, w), Some (compute par k)) /\ good h2 w (get_option default h2 w).
    Proof using.
      intros G. cbn [step]. unfold from_wilson. destruct w as [wo wc]. cbn [o_options o_cache].
      destruct (eqb_spec (get_option default h (Obj wo wc)) par) as [E | n].
      - destruct (run compute default h (Obj wo wc) k) as [h2 r] eqn:F. destruct (run_good _ _ _ par _ _ ltac:(rewrite <- E; exact G) E F) as (-> & G2 & _ & O & _).
        exists h2. split; [reflexivity |]. assert (E2 : get_option default h2 (Obj wo wc) = par) by (rewrite <- E; unfold get_option; rewrite O; reflexivity). rewrite E2. exact G2.
      - unfold set_option. cbn [o_options o_cache h_options h_caches h_next]. set (h1 := Heap _ _ _).
        assert (E : get_option default h1 (Obj wo wc) = par) by (unfold get_option, h1; cbn [h_options o_options]; rewrite upd_eq; reflexivity).
        assert (G1 : good h1 (Obj wo wc) par) by (intros k' r; unfold h1; cbn [h_caches o_cache]; rewrite upd_eq; discriminate).
        destruct (run compute default h1 (Obj wo wc) k) as [h2 r] eqn:F. destruct (run_good _ _ _ par _ _ G1 E F) as (-> & G2 & _ & O & _).
        exists h2. split; [reflexivity |]. assert (E2 : get_option default h2 (Obj wo wc) = par) by (rewrite <- E; unfold get_option; rewrite O; reflexivity). rewrite E2. exact G2.
    Qed.
    Lemma both_steps l : forall h w, good h w (get_option default h w) -> predictions l = true -> forall own, snd (steps compute default true true (h, w) l) = expected_all compute own l.
    Proof using.
      induction l as [| [par k | k | p] l IH]; intros h w G Q own; [reflexivity | | discriminate | discriminate].
      cbn [predictions forallb andb] in Q. destruct (both_step h w par k G) as (h2 & E & G2). cbn [steps expected_all expected]. rewrite E.
      specialize (IH h2 w G2 Q own). destruct (steps compute default true true (h2, w) l) as [s rs]. cbn [snd] in *. rewrite IH. reflexivity.
    Qed.
  End InPlace.
  (** neither is changed in place: the object itself is not affected *)
  Section New.
    Definition below (h : @heap P K R) (w : obj) : Prop := o_options w < h_next h /\ o_cache w < h_next h.
    Lemma new_step h w x own : good h w own -> get_option default h w = own -> below h w -> exists h2 w2,
      step compute default false false (h, w) x = ((h2, w2), expected compute own x) /\
      let own2 := match x with Own_option p => p | _ => own end in good h2 w2 own2 /\ get_option default h2 w2 = own2 /\ below h2 w2.
    Proof using.
      intros G E (B1 & B2). destruct w as [wo wc]. cbn [o_options o_cache] in *. destruct x as [par k | k | p].
      - cbn [step expected]. unfold from_wilson. cbn [o_options o_cache]. destruct (eqb_spec (get_option default h (Obj wo wc)) par) as [E' | n].
        + destruct (run compute default h (Obj wo wc) k) as [h2 r] eqn:F. destruct (run_good _ _ _ own _ _ G E F) as (-> & G2 & _ & O & N).
          exists h2, (Obj wo wc). rewrite <- E', E. refine (conj eq_refl (conj G2 (conj _ _))); [rewrite <- E; unfold get_option; rewrite O; reflexivity | unfold below; rewrite N; split; assumption].
        + unfold set_option. cbn [o_options o_cache h_options h_caches h_next]. set (h1 := Heap _ _ _). set (f := Obj _ _).
          assert (E1 : get_option default h1 f = par) by (unfold get_option, h1, f; cbn [h_options o_options]; rewrite upd_eq; reflexivity).
          assert (G1 : good h1 f par) by (intros k' r; unfold h1, f; cbn [h_caches o_cache]; rewrite upd_eq; discriminate).
          destruct (run compute default h1 f k) as [h2 r] eqn:F. destruct (run_good _ _ _ par _ _ G1 E1 F) as (-> & _ & C & O & N).
          exists h2, (Obj wo wc). refine (conj eq_refl (conj _ (conj _ _))).
          * intros k' r. cbn [o_cache]. rewrite C by (unfold f; cbn [o_cache]; lia). unfold h1. cbn [h_caches]. rewrite upd_ne by lia. apply G.
          * rewrite <- E. unfold get_option. rewrite O. unfold h1. cbn [h_options o_options]. rewrite upd_ne by lia. reflexivity.
          * unfold below. rewrite N. unfold h1. cbn [h_next o_options o_cache]. lia.
      - cbn [step expected]. destruct (run compute default h (Obj wo wc) k) as [h2 r] eqn:F. destruct (run_good _ _ _ own _ _ G E F) as (-> & G2 & _ & O & N).
        exists h2, (Obj wo wc). refine (conj eq_refl (conj G2 (conj _ _))); [rewrite <- E; unfold get_option; rewrite O; reflexivity | unfold below; rewrite N; split; assumption].
      - cbn [step expected]. unfold set_option. cbn [o_options o_cache h_options h_caches h_next]. set (h1 := Heap _ _ _). set (f := Obj _ _). exists h1, f.
        refine (conj eq_refl (conj _ (conj _ _))); [intros k' r; unfold h1, f; cbn [h_caches o_cache]; rewrite upd_eq; discriminate | unfold get_option, h1, f; cbn [h_options o_options]; rewrite upd_eq; reflexivity |].
        unfold below, h1, f. cbn [h_next o_options o_cache]. lia.
    Qed.
    Lemma new_steps l : forall h w own, good h w own -> get_option default h w = own -> below h w -> snd (steps compute default false false (h, w) l) = expected_all compute own l.
    Proof using.
      induction l as [| x l IH]; intros h w own G E B; [reflexivity |]. destruct (new_step h w x own G E B) as (h2 & w2 & F & G2 & E2 & B2). cbn [steps expected_all]. rewrite F.
      specialize (IH h2 w2 _ G2 E2 B2). destruct (steps compute default false false (h2, w2) l) as [s rs]. cbn [snd] in *. rewrite IH. reflexivity.
    Qed.
  End New.
  (** the same parameters throughout *)
  Lemma const_step oi ci h w par k : good h w par -> below h w -> exists h2,
    step compute default oi ci (h, w) (Predict par k) = ((h2, w), Some (compute par k)) /\ good h2 w par /\ below h2 w.
  Proof using.
    intros G (B1 & B2). destruct w as [wo wc]. cbn [o_options o_cache] in *. cbn [step]. unfold from_wilson. cbn [o_options o_cache].
    destruct (eqb_spec (get_option default h (Obj wo wc)) par) as [E | n].
    - destruct (run compute default h (Obj wo wc) k) as [h2 r] eqn:F. destruct (run_good _ _ _ par _ _ G E F) as (-> & G2 & _ & O & N).
      exists h2. refine (conj eq_refl (conj G2 _)). unfold below. rewrite N. split; assumption.
    - unfold set_option. destruct oi, ci; cbn [o_options o_cache h_options h_caches h_next]; set (h1 := Heap _ _ _); set (f := Obj _ _);
        (assert (E1 : get_option default h1 f = par) by (unfold get_option, h1, f; cbn [h_options o_options]; rewrite upd_eq; reflexivity));
        (assert (G1 : good h1 f par) by (intros k' r; unfold h1, f; cbn [h_caches o_cache]; rewrite upd_eq; discriminate));
        destruct (run compute default h1 f k) as [h2 r] eqn:F; destruct (run_good _ _ _ par _ _ G1 E1 F) as (-> & G2 & C & O & N); exists h2; refine (conj eq_refl (conj _ _)).
      all: try exact G2.
      all: try (unfold below; rewrite N; unfold h1; try unfold f; cbn [h_next o_options o_cache]; lia).
      all: intros k' r; cbn [o_cache]; rewrite C by (unfold f; cbn [o_cache]; lia); unfold h1; cbn [h_caches]; rewrite upd_ne by lia; apply G.
  Qed.
End Cache.
