From Coq Require Import Reals Lra Psatz Permutation.
From Coquelicot Require Import Complex.
From Verif Require Import Base BaseLemmas Basics_Model Basics_Spec Basics_Proofs.
Local Open Scope R_scope.

(** *** dictionaries *)
Lemma od_get_map {A B} (g : string -> A -> B) k (d : od string A) :
  od_get k (map (fun kv => (fst kv, g (fst kv) (snd kv))) d) = option_map (g k) (od_get k d).
Proof.
  induction d as [|[k' v] d IH]; [reflexivity|]. cbn [map fst snd od_get]. destruct (eqb_spec k k') as [->|]; [reflexivity|exact IH].
Qed.

Definition get0 (k : string) (d : od string R) : R := match od_get k d with Some x => x | None => 0 end.
Lemma counter_update_spec d : NoDup (map fst d) -> forall res k,
  od_get k (counter_update res d) =
    match od_get k d with
    | Some x => Some (x + get0 k res)
    | None => od_get k res
    end.
Proof.
  unfold counter_update. induction d as [|[k' v] d IH]; intros Hnd res k; [reflexivity|].
  cbn [map fst] in Hnd. inversion Hnd as [|? ? Hn Hnd']; subst. cbn [fold_left fst snd]. rewrite IH by assumption.
  cbn [od_get]. destruct (eqb_spec k k') as [->|Hne].
  - assert (E : od_get k' d = None).
    { destruct (od_get k' d) eqn:E; [|reflexivity]. exfalso. apply Hn. apply od_get_Some_In in E. apply in_map_iff. now exists (k', r). }
    rewrite E. rewrite od_get_set_eq. reflexivity.
  - unfold get0. rewrite !od_get_set_ne by congruence. reflexivity.
Qed.
Lemma add_fold l : Forall (fun d => NoDup (map fst d)) l -> forall res k,
  od_get k (fold_left counter_update l res) =
    if existsb (fun d => match od_get k d with Some _ => true | None => false end) (res :: l) then Some (total k (res :: l)) else None.
Proof.
  induction l as [|d l IH]; intros Hnd res k.
  - cbn. destruct (od_get k res); [cbn; f_equal; ring|reflexivity].
  - apply Forall_cons_iff in Hnd. destruct Hnd as [H1 H2]. cbn [fold_left]. rewrite IH by assumption.
    cbn [existsb total]. rewrite (counter_update_spec d H1). unfold get0.
    destruct (od_get k res) as [x|], (od_get k d) as [y|]; cbn [orb]; try reflexivity; try (f_equal; ring).
    match goal with |- context[existsb ?f l] => destruct (existsb f l) end; [f_equal; ring|reflexivity].
Qed.
Lemma total_perm k l l' : Permutation l l' -> total k l = total k l'.
Proof. induction 1; cbn; try lra. Qed.
Lemma existsb_perm {A} (f : A -> bool) l l' : Permutation l l' -> existsb f l = existsb f l'.
Proof. induction 1; cbn; auto; try congruence. now destruct (f x), (f y). Qed.

(** *** the CKM matrix *)
Lemma up_get s n : up_quark s n <-> od_get s q_dict_u = Some n.
Proof.
  split; [now intros []|]. unfold q_dict_u. cbn [od_get].
  destruct (eqb_spec s "u"%string) as [->|]; [intros [= <-]; constructor|].
  destruct (eqb_spec s "c"%string) as [->|]; [intros [= <-]; constructor|].
  destruct (eqb_spec s "t"%string) as [->|]; [intros [= <-]; constructor|]. discriminate.
Qed.
Lemma down_get s n : down_quark s n <-> od_get s q_dict_d = Some n.
Proof.
  split; [now intros []|]. unfold q_dict_d. cbn [od_get].
  destruct (eqb_spec s "d"%string) as [->|]; [intros [= <-]; constructor|].
  destruct (eqb_spec s "s"%string) as [->|]; [intros [= <-]; constructor|].
  destruct (eqb_spec s "b"%string) as [->|]; [intros [= <-]; constructor|]. discriminate.
Qed.
Lemma up_letter s n : up_quark s n -> exists c, s = String c EmptyString.
Proof. intros []; eauto. Qed.
Lemma down_letter s n : down_quark s n -> exists c, s = String c EmptyString.
Proof. intros []; eauto. Qed.
Lemma up_down s n m : up_quark s n -> down_quark s m -> False.
Proof. intros [] H; inversion H. Qed.

Lemma xi_up a b c k i j : up_quark a k -> down_quark b i -> down_quark c j ->
  xi a (append b c) = Ok (fun V => Cmult (V k i) (Cconj (V k j))).
Proof.
  intros Ha Hb Hc. apply up_get in Ha. unfold xi. rewrite Ha.
  destruct (down_letter b i Hb) as [x ->]. destruct (down_letter c j Hc) as [y ->].
  apply down_get in Hb. apply down_get in Hc. cbn [append letter String.get bind]. unfold lookup. rewrite Hb. cbn [bind]. rewrite Hc. reflexivity.
Qed.
Lemma xi_down a b c k i j : down_quark a i -> up_quark b k -> up_quark c j ->
  xi a (append b c) = Ok (fun V => Cmult (V k i) (Cconj (V j i))).
Proof.
  intros Ha Hb Hc.
  assert (Hu : od_get a q_dict_u = None).
  { destruct (od_get a q_dict_u) as [n|] eqn:E; [|reflexivity]. exfalso. apply up_get in E. now apply (up_down a n i). }
  unfold xi. rewrite Hu. unfold lookup at 1. apply down_get in Ha. rewrite Ha. cbn [bind].
  destruct (up_letter b k Hb) as [x ->]. destruct (up_letter c j Hc) as [y ->].
  apply up_get in Hb. apply up_get in Hc. cbn [append letter String.get bind]. unfold lookup. rewrite Hb. cbn [bind]. rewrite Hc. reflexivity.
Qed.

Lemma Cdiv2 a b c : b <> RtoC 0 -> c <> RtoC 0 -> (a / b / c = a / (b * c))%C.
Proof. intros. field. split; assumption. Qed.

Lemma ckm_angles V : (V 0%nat 0%nat * Cconj (V 0%nat 2%nat) + V 1%nat 0%nat * Cconj (V 1%nat 2%nat) + V 2%nat 0%nat * Cconj (V 2%nat 2%nat) = 0)%C ->
  (forall k, (k < 3)%nat -> V k 0%nat <> RtoC 0 /\ V k 2%nat <> RtoC 0) ->
  let a := get_ckmangle_alpha V in let b := get_ckmangle_beta V in let g := get_ckmangle_gamma V in
  (a + b + g = PI /\ 0 <= a /\ 0 <= b /\ 0 <= g) \/ (a + b + g = - PI /\ a < 0 /\ b < 0 /\ g < 0).
Proof.
  intros Hu Hn. cbv zeta.
  destruct (Hn 0%nat ltac:(lia)) as [n00 n02]. destruct (Hn 1%nat ltac:(lia)) as [n10 n12]. destruct (Hn 2%nat ltac:(lia)) as [n20 n22].
  apply Cconj_ne in n02. apply Cconj_ne in n12. apply Cconj_ne in n22.
  unfold get_ckmangle_alpha, get_ckmangle_beta, get_ckmangle_gamma.
  set (c02 := Cconj (V 0%nat 2%nat)) in *. set (c12 := Cconj (V 1%nat 2%nat)) in *. set (c22 := Cconj (V 2%nat 2%nat)) in *.
  set (v00 := V 0%nat 0%nat) in *. set (v10 := V 1%nat 0%nat) in *. set (v20 := V 2%nat 0%nat) in *.
  set (X := (v00 * c02)%C) in *. set (Y := (v10 * c12)%C) in *. set (W := (v20 * c22)%C) in *.
  assert (nX : X <> RtoC 0) by now apply Cmult_neq_0. assert (nY : Y <> RtoC 0) by now apply Cmult_neq_0. assert (nW : W <> RtoC 0) by now apply Cmult_neq_0.
  assert (Ea : (- v20 * c22 / v00 / c02 = - W / X)%C) by (unfold W, X; field; split; assumption).
  assert (Eb : (- v10 * c12 / v20 / c22 = - Y / W)%C) by (unfold W, Y; field; split; assumption).
  assert (Eg : (- v00 * c02 / v10 / c12 = - X / Y)%C) by (unfold Y, X; field; split; assumption).
  rewrite Ea, Eb, Eg.
  assert (Nd : forall p q, p <> RtoC 0 -> q <> RtoC 0 -> (- p / q)%C <> RtoC 0).
  { intros p q Hp Hq E. apply Hp. replace p with (- ((- p / q) * q))%C by (field; assumption). rewrite E. rewrite Cmult_0_l. apply Copp_0. }
  (* order: z1 = -Y/W, z2 = -W/X, z3 = -X/Y *)
  destruct (triangle_angles (- Y / W)%C (- W / X)%C (- X / Y)%C (phase (- Y / W)%C) (phase (- W / X)%C) (phase (- X / Y)%C)) as [(H & ? & ? & ?)|(H & ? & ? & ?)].
  - now apply Nd.
  - now apply Nd.
  - now apply Nd.
  - field. repeat split; assumption.
  - replace ((- Y / W) * (- W / X) + 1)%C with ((X + Y) / X)%C by (field; split; assumption).
    replace (X + Y)%C with (- W)%C; [reflexivity|].
    rewrite <- (Cplus_0_r (- W)%C), <- Hu. rewrite (Cplus_comm (X + Y)%C W), Cplus_assoc, (Cplus_comm (- W)%C W), Cplus_opp_r, Cplus_0_l. reflexivity.
  - apply phase_angle. now apply Nd.
  - apply phase_angle. now apply Nd.
  - apply phase_angle. now apply Nd.
  - left. repeat split; lra.
  - right. repeat split; lra.
Qed.

(** *** elements *)
Lemma table_combine : table = combine (map Z.of_nat (seq 0 119)) element_table.
Proof. reflexivity. Qed.
Lemma symbol_spec z : symbol z = match z with
   | Z0 | Zpos _ => match nth_error element_table (Z.to_nat z) with Some s => Ok s | None => Err KeyError end
   | Zneg _ => Err KeyError end.
Proof.
  unfold symbol. assert (G : forall (l : list string) n z, (Z.of_nat n <= z)%Z ->
     od_get z (combine (map Z.of_nat (seq n (length l))) l) = nth_error l (Z.to_nat z - n)).
  { induction l as [|s l IH]; intros n z' Hz; [cbn; now destruct (Z.to_nat z' - n)%nat|].
    cbn [length seq map combine od_get]. destruct (eqb_spec z' (Z.of_nat n)) as [->|Hne].
    - rewrite Nat2Z.id, Nat.sub_diag. reflexivity.
    - rewrite IH by lia. replace (Z.to_nat z' - n)%nat with (S (Z.to_nat z' - S n)) by lia. reflexivity. }
  assert (G' : forall (l : list string) n z, (z < Z.of_nat n)%Z -> od_get z (combine (map Z.of_nat (seq n (length l))) l) = None).
  { induction l as [|s l IH]; intros n z' Hz; [reflexivity|]. cbn [length seq map combine od_get].
    destruct (eqb_spec z' (Z.of_nat n)) as [->|Hne]; [lia|]. apply IH. lia. }
  unfold table. destruct z as [|p|p].
  - rewrite (G _ 0%nat) by lia. rewrite Nat.sub_0_r. reflexivity.
  - rewrite (G _ 0%nat) by lia. rewrite Nat.sub_0_r. reflexivity.
  - rewrite (G' _ 0%nat) by lia. reflexivity.
Qed.
Lemma elements_distinct : NoDup element_table.
Proof.
  assert (E : dedup element_table = element_table) by (vm_compute; reflexivity). rewrite <- E. apply dedup_NoDup.
Qed.
Lemma inv_table s : od_get s table_inv = od_get s (map (fun kv => (snd kv, fst kv)) table).
Proof. assert (E : table_inv = map (fun kv => (snd kv, fst kv)) table) by (vm_compute; reflexivity). now rewrite E. Qed.
Lemma Z_of_spec s z : Z_of s = Ok z <-> symbol z = Ok s.
Proof.
  unfold Z_of, symbol. rewrite inv_table.
  assert (Hnd : NoDup (map fst (map (fun kv => (snd kv, fst kv)) table))).
  { assert (E : map fst (map (fun kv => (snd kv, fst kv)) table) = element_table) by (vm_compute; reflexivity). rewrite E. apply elements_distinct. }
  assert (Hnd' : NoDup (map fst table)).
  { assert (E : map fst table = map Z.of_nat (seq 0 119)) by (vm_compute; reflexivity). rewrite E.
    apply FinFun.Injective_map_NoDup; [intros a b H; lia|apply seq_NoDup]. }
  split; intros H.
  - destruct (od_get s _) as [z'|] eqn:E; [|discriminate]. injection H as ->. apply od_get_Some_In in E. apply in_map_iff in E. destruct E as ([a b] & E & Hin). cbn in E. injection E as -> ->.
    now rewrite (od_In_get _ _ _ Hnd' Hin).
  - destruct (od_get z table) as [s'|] eqn:E; [|discriminate]. injection H as ->. apply od_get_Some_In in E.
    assert (Hin : In (s, z) (map (fun kv => (snd kv, fst kv)) table)) by (apply in_map_iff; now exists (z, s)).
    now rewrite (od_In_get _ _ _ Hnd Hin).
Qed.

(** *** robust minimisation *)
Section Opt.
  Context {X : Type}.
  Variable minimize : (X -> R) -> string -> X -> nat -> opt X.
  (** first success in a list of methods, attempts counted from [n] *)
  Fixpoint first (f : X -> R) (x0 : X) (l : list string) (n : nat) (last : option (opt X)) : opt X + option (opt X) :=
    match l with
    | [] => inr last
    | m :: l => let o := minimize f m x0 n in if o_success o then inl o else first f x0 l (S n) (Some o)
    end.
  Lemma first_app f x0 l l' : forall n last,
    first f x0 (l ++ l') n last = match first f x0 l n last with inl o => inl o | inr la => first f x0 l' (n + length l) la end.
  Proof.
    induction l as [|m l IH]; intros n last; cbn [app first length].
    - now rewrite Nat.add_0_r.
    - destruct (o_success _); [reflexivity|]. rewrite IH. destruct (first f x0 l (S n) _); [reflexivity|]. f_equal. lia.
  Qed.
  Definition available (iminuit : bool) (ms : list string) : list string := filter (fun m => negb (String.eqb m "MIGRAD") || iminuit) ms.
  Lemma methods_first iminuit f x0 val ms : forall n start last,
    match methods_loop minimize iminuit f x0 val ms n start last with
    | inl o => first f x0 (available iminuit ms) n last = inl o
    | inr (n', _, last') => first f x0 (available iminuit ms) n last = inr last' /\ n' = (n + length (available iminuit ms))%nat
    end.
  Proof.
    induction ms as [|m ms IH]; intros n start last; cbn [methods_loop available filter].
    - cbn. split; [reflexivity|lia].
    - assert (E : eqb m "MIGRAD"%string = String.eqb m "MIGRAD") by reflexivity. rewrite E.
      destruct (String.eqb m "MIGRAD"), iminuit; cbn [andb orb negb]; try apply IH;
      (cbn [first length]; destruct (o_success (minimize f m x0 n)); [reflexivity|];
       match goal with |- match methods_loop _ _ _ _ _ _ _ ?s ?la with _ => _ end => specialize (IH (S n) s la) end;
       destruct (methods_loop _ _ _ _ _ _ _ _ _) as [o|[[n' s'] la]]; [exact IH|]; destruct IH as [IH1 IH2]; split; [exact IH1|];
       unfold available in *; lia).
  Qed.
  Lemma tries_first iminuit f x0 val ms tries : forall n start last,
    tries_loop minimize iminuit f x0 val ms tries n start last =
      match first f x0 (concat (repeat (available iminuit ms) tries)) n last with
      | inl o => Ok o | inr (Some o) => Ok o | inr None => Err UnboundLocalError end.
  Proof.
    induction tries as [|tries IH]; intros n start last; cbn [tries_loop repeat concat].
    - cbn [first]. reflexivity.
    - rewrite first_app. pose proof (methods_first iminuit f x0 val ms n start last) as H.
      destruct (methods_loop _ _ _ _ _ _ _ _ _) as [o|[[n' s'] la]].
      + now rewrite H.
      + destruct H as [-> ->]. apply IH.
  Qed.
  Lemma first_success f x0 l : forall n last k m, nth_error l k = Some m -> o_success (minimize f m x0 (n + k)) = true ->
    (forall k' m', (k' < k)%nat -> nth_error l k' = Some m' -> o_success (minimize f m' x0 (n + k')) = false) ->
    first f x0 l n last = inl (minimize f m x0 (n + k)).
  Proof.
    induction l as [|m0 l IH]; intros n last k m Hk Hs Hf; [destruct k; discriminate|].
    destruct k as [|k]; cbn [nth_error] in Hk; cbn [first].
    - injection Hk as ->. rewrite Nat.add_0_r in *. now rewrite Hs.
    - pose proof (Hf 0%nat m0 ltac:(lia) eq_refl) as H0. rewrite Nat.add_0_r in H0. rewrite H0.
      rewrite (IH (S n) _ k m Hk).
      + f_equal. f_equal. lia.
      + replace (S n + k)%nat with (n + S k)%nat by lia. exact Hs.
      + intros k' m' Hlt Hn. replace (S n + k')%nat with (n + S k')%nat by lia. apply Hf; [lia|exact Hn].
  Qed.
  Lemma first_fail f x0 l : forall n last m, (forall k' m', nth_error (l ++ [m]) k' = Some m' -> o_success (minimize f m' x0 (n + k')) = false) ->
    first f x0 (l ++ [m]) n last = inr (Some (minimize f m x0 (n + length l))).
  Proof.
    induction l as [|m0 l IH]; intros n last m Hf; cbn [app first length].
    - pose proof (Hf 0%nat m eq_refl) as H0. rewrite Nat.add_0_r in *. now rewrite H0.
    - pose proof (Hf 0%nat m0 eq_refl) as H0. rewrite Nat.add_0_r in H0. rewrite H0. rewrite IH.
      + do 2 f_equal. f_equal. lia.
      + intros k' m' Hk. replace (S n + k')%nat with (n + S k')%nat by lia. now apply Hf.
  Qed.
End Opt.
