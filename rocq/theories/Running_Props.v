(** * C47, C48, C98-C102: running of parameters *)
From Coq Require Import Reals Lra.
From Verif Require Import Base BaseLemmas Running_Model Running_Spec Running_Proofs Running_Proofs2 Running_Proofs3.
Local Open Scope R_scope.

Section Calls.
  Context {Y D : Type}.
  Variable evolve : D -> nat -> R -> R -> Y -> Y.                       (* the integration of one step *)
  Variable key_eqb : @key Y D -> @key Y D -> bool.
  Hypothesis key_ok : forall k k', key_eqb k k' = true <-> k = k'.
  Variable maxsize : nat.
  Let session (t : thresholds) (ops : list (@rop Y D)) := rrun evolve key_eqb maxsize (mkRS t [] []) ops.

  Lemma first_call t y d a b n : session t [Run y d a b n] = [Some (fresh evolve t y d a b n)].
  Proof.
    destruct (run_inv evolve key_eqb key_ok maxsize [Run y d a b n] [t] (fun _ => False) (mkRS t [] [])) with (past := @nil (@rop Y D)) (y := y) (d := d) (a := a) (b := b) (n := n) (rest := @nil (@rop Y D)) as (r & Hr & _ & H).
    - split; [now left|]. cbn. tauto.
    - constructor; [intros ? ? ?; discriminate|constructor].
    - reflexivity.
    - cbn [flat_map last rs_thr] in H. rewrite <- H by easy. unfold session. revert Hr. cbn [rrun]. destruct (rstep _ _ _ _ _). cbn. intros E. now injection E as ->.
  Qed.

  (** C47.  Running from [a] to [b] integrates step by step along a contiguous chain from [a] to [b] in one
      direction, every step with the number of flavours that is active between its ends, and cut at
      thresholds only.  There is exactly one such chain. *)
  Theorem C47_steps : forall t y d a b, ordered t -> a <> b -> 0.1 <= b ->
    exists l, (leads a b l /\ Forall (step_active t) l /\ changes l) /\
      (forall l', leads a b l' /\ Forall (step_active t) l' /\ changes l' -> l' = l) /\
      session t [Run y d a b None] = [Some (Ok (run_steps (evolve d) l y))].
  Proof.
    intros t y d a b Ho Hab Hb. rewrite first_call. unfold fresh. destruct (Req_EM_T a b); [easy|]. destruct (Rlt_dec b 0.1); [lra|].
    assert (E : exists l, leads a b l /\ Forall (step_active t) l /\ changes l /\ evolve_sm_body evolve t y d a b None = Ok (run_steps (evolve d) l y)).
    { destruct (Rtotal_order a b) as [H|[H|H]]; [now apply up_steps|easy|now apply down_steps]. }
    destruct E as (l & L & F & C & E). exists l. split; [auto|]. split.
    - intros l' (L' & F' & C'). now apply (chain_unique t Ho l' a b l).
    - now rewrite E.
  Qed.
  (** Nothing happens between equal scales, and scales below 0.1 are refused. *)
  Theorem C47_ends : forall t y d a b n,
    (a = b -> session t [Run y d a b n] = [Some (Ok y)]) /\
    (a <> b -> b < 0.1 -> session t [Run y d a b n] = [Some (Err ValueError)]).
  Proof.
    intros. rewrite first_call. unfold fresh. split; intros.
    - destruct (Req_EM_T a b); [reflexivity|easy].
    - destruct (Req_EM_T a b); [easy|]. destruct (Rlt_dec b 0.1); [reflexivity|lra].
  Qed.
  (** With a requested number of flavours, running down enters the region of [n] flavours by the
      chain of steps of C47 and stays with [n] flavours from there to the end, if that region is met above the
      final scale. *)
  Theorem C47_requested_flavours : forall t y d a b n, ordered t -> 0.1 <= b -> (3 <= n <= 6)%nat ->
    lower t n < a -> b < enters t n a ->
    exists l, leads a (enters t n a) l /\ Forall (step_active t) l /\ changes l /\
      session t [Run y d a b (Some n)] = [Some (Ok (run_steps (evolve d) (l ++ [(n, enters t n a, b)]) y))].
  Proof.
    intros t y d a b n Ho Hb Hn Hl He. rewrite first_call. unfold fresh.
    assert (b < a). { revert He. destruct n as [|[|[|[|[|[|n]]]]]]; cbn; unfold Rmin; dest. }
    destruct (Req_EM_T a b); [lra|]. destruct (Rlt_dec b 0.1); [lra|].
    destruct (down_nf_out evolve t y d a b n Ho Hb He Hl Hn) as (l & L & F & C & E). exists l. repeat split; auto.
    rewrite E. unfold run_steps. now rewrite fold_left_app.
  Qed.

  (** C98 asks that the requested number of flavours always is that of the result.  It is ignored when
      running up, and when running down to a final scale with more flavours than requested, and when the initial
      scale is below the requested region. *)
  Theorem C98_requested_flavours_ignored : forall t y d a b n, ordered t -> 0.1 <= b -> (3 <= n <= 6)%nat ->
    a < b \/ (b < a /\ enters t n a <= b) \/ (b < a /\ a <= lower t n) ->
    session t [Run y d a b (Some n)] = session t [Run y d a b None].
  Proof.
    intros t y d a b n Ho Hb Hn H. rewrite !first_call. unfold fresh.
    destruct (Req_EM_T a b); [reflexivity|]. destruct (Rlt_dec b 0.1); [reflexivity|].
    destruct H as [H|[[H H']|[H H']]].
    - now rewrite (up_ignores_nf_out evolve t y d a b (Some n) None).
    - rewrite (down_nf_out_ignored evolve t y d a b n); auto.
    - rewrite (down_nf_out_ignored evolve t y d a b n); auto.
  Qed.

  (** C48, what holds.  In a session of calls and changes of the configuration, every result is the one
      of a configuration that was in force at some time, and the current one if no call before had the same
      arguments. *)
  Theorem C48_some_configuration : forall t past y d a b n rest,
    Forall no_overwrite (past ++ Run y d a b n :: rest) ->
    exists r, nth_error (session t (past ++ Run y d a b n :: rest)) (length past) = Some (Some r) /\
      (exists t', In t' (in_force t past) /\ r = fresh evolve t' y d a b n) /\
      (~ In (Run y d a b n) past -> r = fresh evolve (last (in_force t past) t) y d a b n).
  Proof.
    intros t past y d a b n rest Hno.
    assert (HI : inv evolve [t] (fun _ => False) (mkRS t [] [])) by (split; [now left|cbn; tauto]).
    destruct (run_inv evolve key_eqb key_ok maxsize _ _ _ _ HI Hno past y d a b n rest eq_refl) as (r & Hr & Ht & H).
    exists r. split; [exact Hr|]. split; [exact Ht|]. intros Hn. rewrite H by (intros; easy). cbn [rs_thr]. unfold in_force. f_equal.
    cbn [last]. destruct (flat_map _ past) eqn:E; [reflexivity|]. clear. revert t0. induction l; intros; [reflexivity|apply IHl].
  Qed.
  (** With a constant configuration the cache cannot be noticed. *)
  Theorem C48_constant_configuration : forall t past y d a b n rest,
    (forall o, In o (past ++ Run y d a b n :: rest) -> exists y d a b n, o = Run y d a b n) ->
    nth_error (session t (past ++ Run y d a b n :: rest)) (length past) = Some (Some (fresh evolve t y d a b n)).
  Proof.
    intros t past y d a b n rest Hall.
    destruct (C48_some_configuration t past y d a b n rest) as (r & Hr & (t' & Ht & E) & _).
    { apply Forall_forall. intros o Ho i z ->. destruct (Hall _ Ho) as (? & ? & ? & ? & ? & H). discriminate. }
    rewrite Hr, E. destruct Ht as [->|Ht]; [reflexivity|]. exfalso. apply in_flat_map in Ht. destruct Ht as (o & Ho & Ht).
    destruct (Hall o) as (? & ? & ? & ? & ? & ->); [apply in_or_app; now left|]. destruct Ht.
  Qed.
End Calls.

(** *** C48 and C99, what does not hold.  An integration that keeps its history shows every integration. *)
Definition record_step (_ : unit) (nf : nat) (a b : R) (y : list step) : list step := y ++ [(nf, a, b)].
Definition step_eqb (s s' : step) : bool := let '(n, a, b) := s in let '(m, c, d) := s' in Nat.eqb n m && reqb a c && reqb b d.
Fixpoint steps_eqb (l l' : list step) : bool :=
  match l, l' with [], [] => true | s :: l, s' :: l' => step_eqb s s' && steps_eqb l l' | _, _ => false end.
Definition args_eqb (k k' : @key (list step) unit) : bool :=
  let '(y, _, a, b, n) := k in let '(y', _, a', b', n') := k' in
  steps_eqb y y' && reqb a a' && reqb b b' && match n, n' with None, None => true | Some i, Some j => Nat.eqb i j | _, _ => false end.
Lemma reqb_true a b : reqb a b = true <-> a = b.
Proof. unfold reqb. destruct (Req_EM_T a b); split; congruence. Qed.
Lemma steps_eqb_true l : forall l', steps_eqb l l' = true <-> l = l'.
Proof.
  induction l as [|[[n a] b] l IH]; intros [|[[m c] d] l']; cbn; try (split; congruence).
  rewrite !andb_true_iff, Nat.eqb_eq, !reqb_true, IH. split; [intros [[[-> ->] ->] ->]; reflexivity|intros E; injection E as -> -> -> ->; auto].
Qed.
Lemma args_ok k k' : args_eqb k k' = true <-> k = k'.
Proof.
  destruct k as [[[[y []] a] b] n], k' as [[[[y' []] a'] b'] n']. cbn. rewrite !andb_true_iff, !reqb_true, steps_eqb_true.
  split.
  - intros [[[-> ->] ->] H]. destruct n, n'; try easy. apply Nat.eqb_eq in H. now subst.
  - intros E. injection E as -> -> -> ->. destruct n'; [rewrite Nat.eqb_refl|]; auto.
Qed.
Definition defaults : thresholds := mkT 1.275 4.18 173.21.
Lemma defaults_ordered : ordered defaults.
Proof. unfold ordered; cbn; lra. Qed.

Ltac runs := cbn [rrun rstep rg_evolve_sm rs_thr rs_cache rs_heap]; unfold rg_evolve_sm, evolve_sm_body;
  cbn [rs_thr rs_cache rs_heap cache_get find option_map fst snd]; dest.

Definition down_call : @rop (list step) unit := Run [] tt 10 3 None.
Lemma down_call_fresh t : ordered t -> t_mc t < 3 -> 3 < t_mb t < 10 -> 10 < t_mt t ->
  fresh record_step t [] tt 10 3 None = Ok [(5%nat, 10, t_mb t); (4%nat, t_mb t, 3)].
Proof.
  intros Ho H1 H2 H3. unfold fresh. destruct (Req_EM_T 10 3); [lra|]. destruct (Rlt_dec 3 0.1); [lra|].
  unfold evolve_sm_body. destruct (Rgt_dec 10 3); [|lra]. destruct t as [mc mb mt]. cbn [t_mc t_mb t_mt] in *.
  cbn [run_down threshold Nat.eqb t_mc t_mb t_mt max_thr thr_or]. unfold Rmax, reqb. dest. reflexivity.
Qed.
(** After a change of the threshold mb from 4.18 to 5 the call of before still returns the result for
    4.18. *)
Theorem C48_stale_refuted :
  nth_error (rrun record_step args_eqb 1000 (mkRS defaults [] []) [down_call; SetThresholds (mkT 1.275 5 173.21); down_call]) 2
    = Some (Some (Ok [(5%nat, 10, 4.18); (4%nat, 4.18, 3)])) /\
  rrun record_step args_eqb 1000 (mkRS (mkT 1.275 5 173.21) [] []) [down_call]
    = [Some (Ok [(5%nat, 10, 5); (4%nat, 5, 3)])].
Proof.
  split.
  - unfold down_call. cbn [rrun].
    assert (E : fresh record_step defaults [] tt 10 3 None = Ok [(5%nat, 10, 4.18); (4%nat, 4.18, 3)]).
    { apply (down_call_fresh defaults); cbn; try lra. apply defaults_ordered. }
    unfold fresh in E. destruct (Req_EM_T 10 3); [lra|]. destruct (Rlt_dec 3 0.1); [lra|].
    unfold rstep at 1. unfold rg_evolve_sm. destruct (Req_EM_T 10 3); [lra|]. destruct (Rlt_dec 3 0.1); [lra|].
    cbn [cache_get rs_cache find option_map rs_thr]. rewrite E.
    cbn [rs_heap app length nth_error rstep rs_thr rs_cache]. unfold rg_evolve_sm. destruct (Req_EM_T 10 3); [lra|]. destruct (Rlt_dec 3 0.1); [lra|].
    cbn [rs_cache rs_heap rs_thr]. unfold cache_put, cache_get. cbn [filter firstn find fst].
    rewrite (proj2 (args_ok _ _) eq_refl). reflexivity.
  - unfold down_call. rewrite (first_call record_step args_eqb args_ok). rewrite down_call_fresh; cbn; try lra; [reflexivity|]. unfold ordered; cbn; lra.
Qed.
(** The array that a call returns is the one in the cache: changing it in place changes the result of
    the same call later. *)
Theorem C99_shared_result_refuted :
  nth_error (rrun record_step args_eqb 1000 (mkRS defaults [] []) [down_call; Overwrite 0 []; down_call]) 2
    = Some (Some (Ok [])) /\
  rrun record_step args_eqb 1000 (mkRS defaults [] []) [down_call; down_call]
    = [Some (Ok [(5%nat, 10, 4.18); (4%nat, 4.18, 3)]); Some (Ok [(5%nat, 10, 4.18); (4%nat, 4.18, 3)])].
Proof.
  assert (E : fresh record_step defaults [] tt 10 3 None = Ok [(5%nat, 10, 4.18); (4%nat, 4.18, 3)]).
  { apply (down_call_fresh defaults); cbn; try lra. apply defaults_ordered. }
  unfold fresh in E. destruct (Req_EM_T 10 3); [lra|]. destruct (Rlt_dec 3 0.1); [lra|].
  unfold down_call. split; cbn [rrun];
  unfold rstep at 1; unfold rg_evolve_sm at 1; (destruct (Req_EM_T 10 3); [lra|]); (destruct (Rlt_dec 3 0.1); [lra|]);
  cbn [cache_get rs_cache find option_map rs_thr]; rewrite E;
  cbn [rs_heap app length nth_error rstep rs_thr rs_cache set_at]; unfold rg_evolve_sm; (destruct (Req_EM_T 10 3); [lra|]); (destruct (Rlt_dec 3 0.1); [lra|]);
  cbn [rs_cache rs_heap rs_thr]; unfold cache_put, cache_get; cbn [filter firstn find fst];
  rewrite (proj2 (args_ok _ _) eq_refl); reflexivity.
Qed.
(** Between equal scales the result is a new array each time. *)
Theorem C99_equal_scales_copied : forall {Y D} (evolve : D -> nat -> R -> R -> Y -> Y) key_eqb maxsize st y d a n,
  exists st' i, rg_evolve_sm evolve key_eqb maxsize st y d a a n = (st', Ok i) /\
    nth_error (rs_heap st) i = None /\ nth_error (rs_heap st') i = Some y /\ rs_cache st' = rs_cache st.
Proof.
  intros. unfold rg_evolve_sm. destruct (Req_EM_T a a); [|easy]. do 2 eexists. split; [reflexivity|]. cbn [rs_heap rs_cache].
  split; [apply nth_error_None; lia|]. split; [|easy]. rewrite nth_error_app2, Nat.sub_diag by lia. reflexivity.
Qed.
(** C98: running up from 3 to 10 with three flavours requested uses four and five. *)
Theorem C98_requested_flavours_refuted :
  rrun record_step args_eqb 1000 (mkRS defaults [] []) [Run [] tt 3 10 (Some 3%nat)]
    = [Some (Ok [(4%nat, 3, 4.18); (5%nat, 4.18, 10)])].
Proof.
  rewrite (first_call record_step args_eqb args_ok). unfold fresh. destruct (Req_EM_T 3 10); [lra|]. destruct (Rlt_dec 10 0.1); [lra|].
  unfold evolve_sm_body. destruct (Rgt_dec 3 10); [lra|]. destruct (Rlt_dec 3 10); [|lra].
  cbn [run_up threshold Nat.eqb Nat.ltb Nat.leb andb t_mc t_mb t_mt defaults min_thr thr_or]. unfold Rmin, reqb. dest. reflexivity.
Qed.

(** *** C100: the fine-structure constant *)
(** The number of flavours that is guessed is the number of active flavours. *)
Theorem C100_number_of_flavours : forall t x, ordered t -> exists n, active t n x /\ get_nf t x = Ok n /\ (forall m, active t m x -> m = n).
Proof.
  intros t x Ho. destruct (active_ex t x) as [n Hn]. exists n. split; [assumption|]. split; [now apply get_nf_spec|].
  intros m Hm. now apply (active_fun t x m n).
Qed.
(** Below the Landau pole, the result is the inverse of the piecewise linear function of the logarithm of
    the scale that starts from the parameter at 91.1876 GeV, also if the active number of flavours is given. *)
Theorem C100_value : forall t ae n x, ordered t -> t_mb t <= 91.1876 <= t_mt t -> 0 < ae -> 0 < x ->
  active t n x -> 0 < inverse_alpha t ae n x ->
  get_alpha_e t ae x None = Ok (/ inverse_alpha t ae n x) /\ get_alpha_e t ae x (Some n) = Ok (/ inverse_alpha t ae n x).
Proof. intros. now apply get_alpha_e_spec. Qed.
Theorem C100_start : forall t ae, ordered t -> t_mb t <= 91.1876 < t_mt t -> 0 < ae -> get_alpha_e t ae 91.1876 None = Ok ae.
Proof.
  intros t ae Ho Hz Ha.
  assert (E : inverse_alpha t ae 5 91.1876 = / ae) by (unfold inverse_alpha, inverse_change; ring).
  destruct (get_alpha_e_spec t ae Ho ltac:(lra) Ha 5 91.1876) as [H _]; [lra|right; right; left; split; [easy|lra]| |].
  - rewrite E. now apply Rinv_0_lt_compat.
  - rewrite H, E. now rewrite Rinv_inv.
Qed.
(** There is no jump at a threshold: the scheme above and the scheme below give the same value there. *)
Theorem C100_continuous : forall t ae, ordered t -> t_mb t <= 91.1876 < t_mt t -> 0 < ae -> 0 < inverse_alpha t ae 6 (t_mt t) ->
  get_alpha_e t ae (t_mt t) (Some 5%nat) = get_alpha_e t ae (t_mt t) (Some 6%nat) /\
  get_alpha_e t ae (t_mb t) (Some 4%nat) = get_alpha_e t ae (t_mb t) (Some 5%nat) /\
  get_alpha_e t ae (t_mc t) (Some 3%nat) = get_alpha_e t ae (t_mc t) (Some 4%nat).
Proof.
  intros t ae Ho Hz Ha Hp. pose proof Ho as (H1 & H2 & H3).
  unfold get_alpha_e, choose_nf. cbn [bind].
  assert (R0 : forall a x nu nd ne, run_alpha_e a x x nu nd ne = Ok a) by (intros; unfold run_alpha_e; destruct (Req_EM_T x x); easy).
  split; [|split].
  - destruct (run_alpha_e ae MZ (t_mt t) 2 3 3) as [v|e]; [|reflexivity]. cbn [bind]. now rewrite R0.
  - destruct (run_alpha_e ae MZ (t_mb t) 2 3 3) as [v|e]; [|reflexivity]. cbn [bind]. now rewrite R0.
  - destruct (run_alpha_e ae MZ (t_mb t) 2 3 3) as [v|e]; [|reflexivity]. cbn [bind].
    destruct (run_alpha_e v (t_mb t) (t_mc t) 2 2 3) as [w|e]; [|reflexivity]. cbn [bind]. now rewrite R0.
Qed.
(** It increases with the scale over all regions. *)
Theorem C100_increasing : forall t ae n x y vx vy, ordered t -> t_mb t <= 91.1876 <= t_mt t -> 0 < ae -> 0 < x -> x < y ->
  active t n y -> 0 < inverse_alpha t ae n y ->
  get_alpha_e t ae x None = Ok vx -> get_alpha_e t ae y None = Ok vy -> 0 < vx < vy.
Proof.
  intros t ae n x y vx vy Ho Hz Ha Hx Hxy An Hp Ex Ey.
  destruct (active_ex t x) as [m Am].
  pose proof (inverse_decreasing t ae Ho Hz m n x y Hx Hxy Am An) as Hd.
  destruct (get_alpha_e_spec t ae Ho Hz Ha n y) as [Hy _]; [lra|assumption|assumption|].
  destruct (get_alpha_e_spec t ae Ho Hz Ha m x) as [Hx' _]; [lra|assumption|lra|].
  rewrite Hy in Ey. injection Ey as <-. rewrite Hx' in Ex. injection Ex as <-.
  split; [apply Rinv_0_lt_compat; lra|]. apply Rinv_lt_contravar; [|assumption]. apply Rmult_lt_0_compat; lra.
Qed.
(** A number of flavours other than 3 to 6 is refused, but 0 counts as not given. *)
Theorem C100_wrong_flavours : forall t ae x n,
  (~ (3 <= n <= 6)%nat -> n <> 0%nat -> get_alpha_e t ae x (Some n) = Err ValueError) /\
  get_alpha_e t ae x (Some 0%nat) = get_alpha_e t ae x None.
Proof.
  intros. split; [|reflexivity]. intros H H0. unfold get_alpha_e. destruct n as [|[|[|[|[|[|[|n]]]]]]]; try easy; try (exfalso; lia).
Qed.

(** *** C101: transverse decay constants *)
Theorem C101_path : forall alpha_s t f x n m, ordered t -> x <> 2 -> flavours_below t m x ->
  (n = None \/ exists k, n = Some k /\ (3 <= k <= 6)%nat) ->
  get_f_perp alpha_s t f x n =
    Some (prod (map (f_perp_factor alpha_s) (f_perp_path t (match n with Some k => Nat.min k m | None => m end) x)) * f).
Proof. exact f_perp_spec. Qed.
Theorem C101_start : forall alpha_s t f n, get_f_perp alpha_s t f 2 n = Some f.
Proof. intros. unfold get_f_perp. now destruct (Req_EM_T 2 2). Qed.

(** *** Cases *)
Example C47_example : exists l, leads 200 1 l /\ Forall (step_active defaults) l /\ changes l /\ length l = 4%nat.
Proof.
  destruct (C47_steps record_step args_eqb args_ok 10 defaults [] tt 200 1 defaults_ordered ltac:(lra) ltac:(lra)) as (l & H & U & _).
  assert (E : [(6%nat, 200, 173.21); (5%nat, 173.21, 4.18); (4%nat, 4.18, 1.275); (3%nat, 1.275, 1)] = l).
  { apply U. repeat split; try (cbn; lra); try (cbn; right; lra); try easy.
    repeat apply Forall_cons; try apply Forall_nil; (split; [lra|]); intros z; unfold Rmin, Rmax; dest; intros ?; unfold active, defaults; cbn;
      first [left; split; [easy|lra]|right; left; split; [easy|lra]|right; right; left; split; [easy|lra]|right; right; right; split; [easy|lra]]. }
  exists l. destruct H as (? & ? & ?). subst l. auto.
Qed.
Example C100_example : exists n, active defaults n 2 /\ 0 < inverse_alpha defaults (1 / 128) n 2.
Proof.
  exists 4%nat. split; [right; left; cbn; split; [easy|lra]|].
  unfold inverse_alpha. rewrite !ichange. cbn [charges defaults t_mb].
  assert (2 / (3 * PI) * ln 4.18 <= 2 / (3 * PI) * ln 91.1876) by (apply kln; lra).
  assert (2 / (3 * PI) * ln 2 <= 2 / (3 * PI) * ln 4.18) by (apply kln; lra). lra.
Qed.
Example C101_example : flavours_below defaults 4 3 /\ ordered defaults.
Proof. split; [right; left; cbn; split; [easy|lra]|apply defaults_ordered]. Qed.

Print Assumptions C47_steps.
Print Assumptions C48_some_configuration.
Print Assumptions C48_stale_refuted.
Print Assumptions C99_shared_result_refuted.
Print Assumptions C100_increasing.
Print Assumptions C101_path.
