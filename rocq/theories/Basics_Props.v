(** * Properties C52, C53, C54, C57, C102-C106: CKM matrix, conjugation, Kallen function, elements, robust
    optimisation, confidence levels *)
From Coq Require Import Reals Lra Psatz Permutation.
From Coquelicot Require Import Complex.
From Verif Require Import Base BaseLemmas Basics_Model Basics_Spec Basics_Proofs Basics_Proofs2 Basics_Proofs3.
Local Open Scope R_scope.

(** *** C52: products of CKM elements *)
(** [xi('t', 'bs')] is V_tb V_ts*, [xi('b', 'ct')] is V_cb V_tb*. *)
Theorem C52_value : forall a b c k i j,
  (up_quark a k -> down_quark b i -> down_quark c j -> xi a (append b c) = Ok (fun V => Cmult (V k i) (Cconj (V k j)))) /\
  (down_quark a i -> up_quark b k -> up_quark c j -> xi a (append b c) = Ok (fun V => Cmult (V k i) (Cconj (V j i)))).
Proof. intros. split; [apply xi_up|apply xi_down]. Qed.
(** Summed over the intermediate quark they give one for equal and zero for different external quarks. *)
Theorem C52_unitarity : forall V, unitary V ->
  (forall b c i j xu xc xt, down_quark b i -> down_quark c j ->
     xi "u" (append b c) = Ok xu -> xi "c" (append b c) = Ok xc -> xi "t" (append b c) = Ok xt ->
     (xu V + xc V + xt V)%C = if String.eqb b c then RtoC 1 else RtoC 0) /\
  (forall b c i j xd xs xb, up_quark b i -> up_quark c j ->
     xi "d" (append b c) = Ok xd -> xi "s" (append b c) = Ok xs -> xi "b" (append b c) = Ok xb ->
     (xd V + xs V + xb V)%C = if String.eqb b c then RtoC 1 else RtoC 0).
Proof.
  intros V [Hc Hr]. split; intros b c i j x y z Hb Hcc Ex Ey Ez.
  - rewrite (xi_up _ b c 0 i j up0 Hb Hcc) in Ex. rewrite (xi_up _ b c 1 i j up1 Hb Hcc) in Ey. rewrite (xi_up _ b c 2 i j up2 Hb Hcc) in Ez.
    injection Ex as <-. injection Ey as <-. injection Ez as <-.
    rewrite Hc; [|destruct Hb; lia|destruct Hcc; lia]. destruct Hb, Hcc; reflexivity.
  - rewrite (xi_down _ b c i 0 j down0 Hb Hcc) in Ex. rewrite (xi_down _ b c i 1 j down1 Hb Hcc) in Ey. rewrite (xi_down _ b c i 2 j down2 Hb Hcc) in Ez.
    injection Ex as <-. injection Ey as <-. injection Ez as <-.
    rewrite Hr; [|destruct Hb; lia|destruct Hcc; lia]. destruct Hb, Hcc; reflexivity.
Qed.
(** Exchanging the external quarks conjugates. *)
Theorem C52_exchange : forall a b c x y V, String.length b = 1%nat -> String.length c = 1%nat ->
  xi a (append b c) = Ok x -> xi a (append c b) = Ok y -> y V = Cconj (x V).
Proof.
  intros a b c x y V Lb Lc. destruct b as [|b [|]]; try discriminate. destruct c as [|c [|]]; try discriminate. cbn [append].
  unfold xi. cbn [letter String.get bind]. unfold lookup.
  destruct (od_get a q_dict_u) as [k|].
  - destruct (od_get (String b "") q_dict_d) as [i|]; [|discriminate]. cbn [bind].
    destruct (od_get (String c "") q_dict_d) as [j|]; [|discriminate]. cbn [bind].
    intros [= <-] [= <-]. unfold xi_kl_ij. rewrite Cconj_mult, Cconj_conj. apply Cmult_comm.
  - destruct (od_get a q_dict_d) as [k|]; [|discriminate]. cbn [bind].
    destruct (od_get (String b "") q_dict_u) as [i|]; [|discriminate]. cbn [bind].
    destruct (od_get (String c "") q_dict_u) as [j|]; [|discriminate]. cbn [bind].
    intros [= <-] [= <-]. unfold xi_kl_ij. rewrite Cconj_mult, Cconj_conj. apply Cmult_comm.
Qed.
(** Other names are refused; only the first two letters of the second name are read. *)
Theorem C52_names : forall a bc, (exists x, xi a bc = Ok x) <->
  exists b c r, String.length b = 1%nat /\ String.length c = 1%nat /\ bc = append b (append c r) /\
    ((exists k i j, up_quark a k /\ down_quark b i /\ down_quark c j) \/ (exists k i j, down_quark a k /\ up_quark b i /\ up_quark c j)).
Proof.
  intros a bc. split.
  - intros [x Hx]. destruct bc as [|b [|c r]].
    + unfold xi in Hx. cbn [letter String.get bind] in Hx. destruct (od_get a q_dict_u); [discriminate|]. unfold lookup in Hx.
      destruct (od_get a q_dict_d); discriminate.
    + exfalso. unfold xi in Hx. cbn [letter String.get bind] in Hx. unfold lookup in Hx. destruct (od_get a q_dict_u).
      * destruct (od_get (String b "") q_dict_d); discriminate.
      * destruct (od_get a q_dict_d); [|discriminate]. cbn [bind] in Hx. destruct (od_get (String b "") q_dict_u); discriminate.
    + exists (String b ""), (String c ""), r. repeat (split; [reflexivity|]).
      unfold xi in Hx. cbn [letter String.get bind] in Hx. unfold lookup in Hx. destruct (od_get a q_dict_u) as [k|] eqn:Ea.
      * left. destruct (od_get (String b "") q_dict_d) as [i|] eqn:Eb; [|discriminate]. cbn [bind] in Hx.
        destruct (od_get (String c "") q_dict_d) as [j|] eqn:Ec; [|discriminate]. exists k, i, j.
        now rewrite up_get, !down_get.
      * right. destruct (od_get a q_dict_d) as [k|] eqn:Ea'; [|discriminate]. cbn [bind] in Hx.
        destruct (od_get (String b "") q_dict_u) as [i|] eqn:Eb; [|discriminate]. cbn [bind] in Hx.
        destruct (od_get (String c "") q_dict_u) as [j|] eqn:Ec; [|discriminate]. exists k, i, j.
        now rewrite down_get, !up_get.
  - intros (b & c & r & Lb & Lc & -> & H). destruct b as [|b [|]]; try discriminate. destruct c as [|c [|]]; try discriminate.
    cbn [append]. unfold xi. cbn [letter String.get bind]. unfold lookup. destruct H as [(k & i & j & Ha & Hb & Hc)|(k & i & j & Ha & Hb & Hc)].
    + apply up_get in Ha. apply down_get in Hb. apply down_get in Hc. rewrite Ha, Hb. cbn [bind]. rewrite Hc. cbn [bind]. eauto.
    + assert (N : od_get a q_dict_u = None) by (destruct Ha; reflexivity). rewrite N.
      apply down_get in Ha. apply up_get in Hb. apply up_get in Hc. rewrite Ha. cbn [bind]. rewrite Hb. cbn [bind]. rewrite Hc. cbn [bind]. eauto.
Qed.
(** The angles of the unitarity triangle: the angles, as points of (-pi, pi], of the documented ratios; they sum
    to pi or -pi, and have the same sign. *)
Theorem C52_angles : forall V, unitary V ->
  (forall k, (k < 3)%nat -> V k 0%nat <> RtoC 0 /\ V k 2%nat <> RtoC 0) ->
  let side k := Cmult (V k 0%nat) (Cconj (V k 2%nat)) in
  let a := get_ckmangle_alpha V in let b := get_ckmangle_beta V in let g := get_ckmangle_gamma V in
  is_angle (- (side 2%nat / side 0%nat))%C a /\ is_angle (- (side 1%nat / side 2%nat))%C b /\ is_angle (- (side 0%nat / side 1%nat))%C g /\
  ((a + b + g = PI /\ 0 <= a /\ 0 <= b /\ 0 <= g) \/ (a + b + g = - PI /\ a < 0 /\ b < 0 /\ g < 0)).
Proof.
  intros V [Hc _] Hn side a b g.
  assert (Z : forall k, (k < 3)%nat -> V k 0%nat <> RtoC 0 /\ Cconj (V k 2%nat) <> RtoC 0).
  { intros k Hk. destruct (Hn k Hk). split; [assumption|now apply Cconj_ne]. }
  assert (G : forall k l, (k < 3)%nat -> (l < 3)%nat -> (- (side k / side l))%C = (- V k 0%nat * Cconj (V k 2%nat) / V l 0%nat / Cconj (V l 2%nat))%C
     /\ (- (side k / side l))%C <> RtoC 0).
  { intros k l Hk Hl. destruct (Z k Hk) as [k0 k2], (Z l Hl) as [l0 l2]. unfold side.
    assert (E : (- (V k 0%nat * Cconj (V k 2%nat) / (V l 0%nat * Cconj (V l 2%nat))))%C = (- V k 0%nat * Cconj (V k 2%nat) / V l 0%nat / Cconj (V l 2%nat))%C) by (field; split; assumption).
    split; [exact E|]. intros F. apply k0.
    replace (V k 0%nat) with (- (- (V k 0%nat * Cconj (V k 2%nat) / (V l 0%nat * Cconj (V l 2%nat)))) * (V l 0%nat * Cconj (V l 2%nat)) / Cconj (V k 2%nat))%C by (field; repeat split; assumption).
    rewrite F. rewrite Copp_0. unfold Cdiv. now rewrite !Cmult_0_l. }
  refine (conj _ (conj _ (conj _ _))).
  - destruct (G 2%nat 0%nat ltac:(lia) ltac:(lia)) as [E N]. unfold a, get_ckmangle_alpha. rewrite <- E. now apply phase_angle.
  - destruct (G 1%nat 2%nat ltac:(lia) ltac:(lia)) as [E N]. unfold b, get_ckmangle_beta. rewrite <- E. now apply phase_angle.
  - destruct (G 0%nat 1%nat ltac:(lia) ltac:(lia)) as [E N]. unfold g, get_ckmangle_gamma. rewrite <- E. now apply phase_angle.
  - apply ckm_angles; [|assumption]. rewrite (Hc 0%nat 2%nat) by lia. reflexivity.
Qed.

(** *** C53: CP conjugation *)
Theorem C53_parameters : forall par,
  map fst (conjugate_par par) = map fst par /\
  (forall k, od_get k (conjugate_par par) =
     match od_get k par with
     | Some v => Some (if String.eqb k "gamma" || String.eqb k "delta" then - v else v)
     | None => None
     end) /\
  conjugate_par (conjugate_par par) = par.
Proof.
  intros par. split; [|split].
  - unfold conjugate_par. rewrite map_map. reflexivity.
  - intros k. unfold conjugate_par. rewrite (od_get_map (fun k v => if memb k cp_odd then - v else v) k par).
    destruct (od_get k par) as [v|]; [|reflexivity]. cbn [option_map]. f_equal.
    unfold cp_odd. cbn [memb existsb]. rewrite orb_false_r. reflexivity.
  - unfold conjugate_par. rewrite map_map. rewrite <- map_id. apply map_ext. intros [k v]. cbn [fst snd].
    destruct (memb k cp_odd); [|reflexivity]. now rewrite Ropp_involutive.
Qed.
Theorem C53_coefficients : forall wc,
  map fst (conjugate_wc wc) = map fst wc /\
  (forall k, od_get k (conjugate_wc wc) = match od_get k wc with Some z => Some (fst z, - snd z) | None => None end) /\
  conjugate_wc (conjugate_wc wc) = wc.
Proof.
  intros wc. split; [|split].
  - unfold conjugate_wc. rewrite map_map. reflexivity.
  - intros k. unfold conjugate_wc. rewrite (od_get_map (fun _ v => Cconj v) k wc). now destruct (od_get k wc).
  - unfold conjugate_wc. rewrite map_map. rewrite <- map_id. apply map_ext. intros [k v]. cbn [fst snd]. now rewrite Cconj_conj.
Qed.
(** Where the CKM matrix is computed from a phase called gamma or delta, as last of the parameters, the conjugated
    parameters give the conjugated matrix. *)
Theorem C53_ckm : forall f i par V, (i = Standard \/ i = Tree) ->
  (forall a b c p k l, f i [a; b; c; - p] k l = Cconj (f i [a; b; c; p] k l)) ->
  get_ckm f i par = Ok V ->
  exists V', get_ckm f i (conjugate_par par) = Ok V' /\ forall k l, V' k l = Cconj (V k l).
Proof.
  intros f i par V Hi Hf H.
  assert (G : forall k, od_get k (conjugate_par par) = option_map (fun v => if memb k cp_odd then - v else v) (od_get k par))
    by (intros k; apply (od_get_map (fun k v => if memb k cp_odd then - v else v))).
  unfold get_ckm in *. destruct Hi as [-> | ->]; cbn [ckm_parameters mapM] in *; unfold lookup in *; rewrite !G.
  - destruct (od_get "t12"%string par) as [a|]; [|discriminate]. destruct (od_get "t13"%string par) as [b|]; [|discriminate].
    destruct (od_get "t23"%string par) as [c|]; [|discriminate]. destruct (od_get "delta"%string par) as [p|]; [|discriminate].
    cbn [bind option_map] in *. injection H as <-. eexists. split; [reflexivity|]. intros k l. cbn. apply Hf.
  - destruct (od_get "Vus"%string par) as [a|]; [|discriminate]. destruct (od_get "Vub"%string par) as [b|]; [|discriminate].
    destruct (od_get "Vcb"%string par) as [c|]; [|discriminate]. destruct (od_get "gamma"%string par) as [p|]; [|discriminate].
    cbn [bind option_map] in *. injection H as <-. eexists. split; [reflexivity|]. intros k l. cbn. apply Hf.
Qed.

(** *** C102: not with the other parametrisations *)
(** The parameters of the Wolfenstein parametrisation are left as they are, so the matrix is not conjugated; nor is
    the one of 'beta gamma', where only gamma changes sign. *)
Theorem C102_wolfenstein_refuted : forall f par,
  get_ckm f Wolfenstein (conjugate_par par) = get_ckm f Wolfenstein par /\
    (forall V v u c b g, od_get "Vus"%string par = Some u -> od_get "Vcb"%string par = Some c -> od_get "beta"%string par = Some b -> od_get "gamma"%string par = Some g ->
     get_ckm f BetaGamma (conjugate_par par) = Ok V -> f BetaGamma [u; c; b; - g] = v -> V = v).
Proof.
  intros f par.
  assert (G : forall k, od_get k (conjugate_par par) = option_map (fun v => if memb k cp_odd then - v else v) (od_get k par))
    by (intros k; apply (od_get_map (fun k v => if memb k cp_odd then - v else v))).
  unfold get_ckm. split.
  - cbn [ckm_parameters mapM]. unfold lookup. rewrite !G.
    destruct (od_get "laC"%string par), (od_get "A"%string par), (od_get "rhobar"%string par), (od_get "etabar"%string par); reflexivity.
  - intros V v u c b g H1 H2 H3 H4 H <-. cbn [ckm_parameters mapM] in H. unfold lookup in H. rewrite !G, H1, H2, H3, H4 in H. cbn in H. now injection H as <-.
Qed.
(** There are parametrisations and parameters for which the conjugated parameters do not give the conjugated matrix. *)
Theorem C102_not_conjugated_refuted :
  exists f par V V', unitary V /\ get_ckm f Wolfenstein par = Ok V /\ get_ckm f Wolfenstein (conjugate_par par) = Ok V' /\
    V' 0%nat 2%nat <> Cconj (V 0%nat 2%nat).
Proof.
  exists (fun _ l => standard 0 (nth 0 l 0) 0 (nth 3 l 0)), [("laC", PI / 2); ("A", 0); ("rhobar", 0); ("etabar", PI / 2)]%string.
  eexists _, _. split; [|split; [reflexivity|split; [reflexivity|]]].
  - apply standard_unitary.
  - change (standard 0 (PI / 2) 0 (PI / 2) 0%nat 2%nat <> Cconj (standard 0 (PI / 2) 0 (PI / 2) 0%nat 2%nat)). cbn [standard].
    unfold cis. rewrite cos_neg, sin_neg, cos_PI2, sin_PI2. unfold Cmult, Cconj, RtoC. cbn [fst snd]. intros E. pose proof (f_equal snd E) as E2. cbn [snd] in E2. lra.
Qed.

(** *** C54: the Kallen function and the sum of dictionaries *)
Theorem C54_symmetric : forall a b c, lambda_K a b c = lambda_K b a c /\ lambda_K a b c = lambda_K a c b /\ lambda_K a b c = lambda_K c b a.
Proof.
  intros. unfold lambda_K. repeat split; match goal with |- (if Rlt_dec ?x 0 then _ else _) = (if Rlt_dec ?y 0 then _ else _) => replace y with x by ring end; reflexivity.
Qed.
(** It is the polynomial where that is positive, and zero elsewhere. *)
Theorem C54_value : forall a b c, lambda_K a b c = Rmax 0 (a ^ 2 + b ^ 2 + c ^ 2 - 2 * a * b - 2 * b * c - 2 * a * c).
Proof.
  intros. unfold lambda_K. replace (a ^ 2 + b ^ 2 + c ^ 2 - 2 * (a * b + b * c + a * c)) with (a ^ 2 + b ^ 2 + c ^ 2 - 2 * a * b - 2 * b * c - 2 * a * c) by ring.
  destruct (Rlt_dec _ 0); unfold Rmax; destruct (Rle_dec _ _); lra.
Qed.
(** For squares of masses it factorises, and vanishes exactly where the decay of [M] to [m1] and [m2] and the
    crossed decays are not possible. *)
Theorem C54_masses : forall M m1 m2, 0 <= M -> 0 <= m1 -> 0 <= m2 ->
  let open := M > m1 + m2 \/ m1 > M + m2 \/ m2 > M + m1 in
  (open -> lambda_K (M ^ 2) (m1 ^ 2) (m2 ^ 2) = (M ^ 2 - (m1 + m2) ^ 2) * (M ^ 2 - (m1 - m2) ^ 2) /\ 0 < lambda_K (M ^ 2) (m1 ^ 2) (m2 ^ 2)) /\
    (~ open -> lambda_K (M ^ 2) (m1 ^ 2) (m2 ^ 2) = 0).
Proof.
  intros M m1 m2 HM H1 H2 open. unfold lambda_K.
  replace ((M ^ 2) ^ 2 + (m1 ^ 2) ^ 2 + (m2 ^ 2) ^ 2 - 2 * (M ^ 2 * m1 ^ 2 + m1 ^ 2 * m2 ^ 2 + M ^ 2 * m2 ^ 2))
    with ((M ^ 2 - (m1 + m2) ^ 2) * (M ^ 2 - (m1 - m2) ^ 2)) by ring.
  assert (F : (M ^ 2 - (m1 + m2) ^ 2) * (M ^ 2 - (m1 - m2) ^ 2) = (M + m1 + m2) * ((M - m1 - m2) * ((M - m1 + m2) * (M + m1 - m2)))) by ring.
  rewrite F. split.
  - intros Ho. assert (P : 0 < (M + m1 + m2) * ((M - m1 - m2) * ((M - m1 + m2) * (M + m1 - m2)))).
    { destruct Ho as [H|[H|H]].
      - repeat apply Rmult_lt_0_compat; lra.
      - replace ((M - m1 - m2) * ((M - m1 + m2) * (M + m1 - m2))) with ((m1 + m2 - M) * ((m1 - M - m2) * (M + m1 - m2))) by ring. repeat apply Rmult_lt_0_compat; lra.
      - replace ((M - m1 - m2) * ((M - m1 + m2) * (M + m1 - m2))) with ((m1 + m2 - M) * ((M - m1 + m2) * (m2 - M - m1))) by ring. repeat apply Rmult_lt_0_compat; lra. }
    destruct (Rlt_dec _ 0); [lra|]. split; [reflexivity|assumption].
  - intros Hn. unfold open in Hn.
    assert (P : 0 <= (M + m1 + m2) * ((m1 + m2 - M) * ((M - m1 + m2) * (M + m1 - m2)))) by (repeat apply Rmult_le_pos; lra).
    destruct (Rlt_dec _ 0); [reflexivity|].
    replace ((M + m1 + m2) * ((m1 + m2 - M) * ((M - m1 + m2) * (M + m1 - m2)))) with (- ((M + m1 + m2) * ((M - m1 - m2) * ((M - m1 + m2) * (M + m1 - m2))))) in P by ring. lra.
Qed.
(** The sum has the keys that occur, with the totals of their values; the order of the dictionaries is irrelevant. *)
Theorem C54_add_dict : forall l d, add_dict l = Ok d -> Forall (fun d => NoDup (map fst d)) l ->
  forall k, od_get k d = if existsb (fun d => match od_get k d with Some _ => true | None => false end) l then Some (total k l) else None.
Proof.
  intros l d H Hl k. destruct l as [|d0 l]; [discriminate|]. injection H as <-. apply Forall_cons_iff in Hl. now apply add_fold.
Qed.
Theorem C54_add_order : forall l l' d d', Permutation l l' -> Forall (fun d => NoDup (map fst d)) l -> add_dict l = Ok d -> add_dict l' = Ok d' ->
  forall k, od_get k d = od_get k d'.
Proof.
  intros l l' d d' P Hl H H' k.
  assert (Hl' : Forall (fun d => NoDup (map fst d)) l').
  { rewrite Forall_forall in *. intros x Hx. apply Hl. eapply Permutation_in; [symmetry; exact P|exact Hx]. }
  rewrite (C54_add_dict _ _ H Hl k), (C54_add_dict _ _ H' Hl' k), (total_perm k _ _ P), (existsb_perm _ _ _ P). reflexivity.
Qed.
Theorem C54_add_none : forall l, add_dict l = Err IndexError <-> l = [].
Proof. intros [|d l]; split; intros H; try discriminate; reflexivity. Qed.

(** *** C103: the chemical elements *)
Theorem C103_symbols : forall z s, symbol z = Ok s <-> Z_of s = Ok z.
Proof. intros. symmetry. apply Z_of_spec. Qed.
Theorem C103_range : forall z, (0 <= z <= 118)%Z <-> exists s, symbol z = Ok s.
Proof.
  intros z. rewrite symbol_spec. assert (L : length element_table = 119%nat) by reflexivity. split.
  - intros Hz. destruct z as [|p|p]; [| |lia].
    + destruct (nth_error element_table (Z.to_nat 0)) as [s|] eqn:E; [eauto|]. apply nth_error_None in E. lia.
    + destruct (nth_error element_table (Z.to_nat (Zpos p))) as [s|] eqn:E; [eauto|]. apply nth_error_None in E. lia.
  - intros [s H]. destruct z as [|p|p]; [lia| |discriminate].
    destruct (nth_error element_table (Z.to_nat (Zpos p))) as [s'|] eqn:E; [|discriminate].
    assert (nth_error element_table (Z.to_nat (Zpos p)) <> None) by congruence. apply nth_error_Some in H0. lia.
Qed.
Theorem C103_known : map symbol [0; 1; 6; 13; 22; 26; 79; 82; 92; 118]%Z = map Ok ["n"; "H"; "C"; "Al"; "Ti"; "Fe"; "Au"; "Pb"; "U"; "Og"]%string /\
    (forall z, ~ (0 <= z <= 118)%Z -> symbol z = Err KeyError).
Proof.
  split; [vm_compute; reflexivity|]. intros z Hz. destruct (symbol z) as [s|e] eqn:E.
  - exfalso. apply Hz. apply C103_range. eauto.
  - unfold symbol in E. destruct (od_get z table); [discriminate|]. now injection E as <-.
Qed.

(** *** C57: robust optimisation *)
Section C57.
  Context {X : Type}.
  Implicit Types (minimize : (X -> R) -> string -> X -> nat -> opt X) (f : X -> R).
  (** the first successful attempt is returned *)
  Theorem C57_first_success : forall minimize iminuit f x0 methods tries k m,
    let l := attempts iminuit (match methods with Some ms => ms | None => ["SLSQP"; "MIGRAD"; "BFGS"; "Nelder-Mead"]%string end) tries in
    nth_error l k = Some m -> o_success (minimize f m x0 k) = true ->
    (forall k' m', (k' < k)%nat -> nth_error l k' = Some m' -> o_success (minimize f m' x0 k') = false) ->
    minimize_robust minimize iminuit f x0 methods tries = Ok (minimize f m x0 k).
  Proof.
    intros minimize iminuit f x0 methods tries k m l Hk Hs Hf. unfold minimize_robust. rewrite tries_first.
    change (concat (repeat (available iminuit match methods with Some ms => ms | None => default_methods end) tries)) with l.
    rewrite (first_success minimize f x0 l 0 None k m Hk Hs Hf). reflexivity.
  Qed.
  (** if none is successful, the last one is returned; if there is none, the call fails *)
  Theorem C57_no_success : forall minimize iminuit f x0 methods tries,
    let l := attempts iminuit (match methods with Some ms => ms | None => ["SLSQP"; "MIGRAD"; "BFGS"; "Nelder-Mead"]%string end) tries in
    (forall k' m', nth_error l k' = Some m' -> o_success (minimize f m' x0 k') = false) ->
    (forall m, l <> [] -> nth_error l (length l - 1) = Some m ->
       minimize_robust minimize iminuit f x0 methods tries = Ok (minimize f m x0 (length l - 1)%nat)) /\
    (l = [] -> minimize_robust minimize iminuit f x0 methods tries = Err UnboundLocalError).
  Proof.
    intros minimize iminuit f x0 methods tries l Hf. unfold minimize_robust. rewrite tries_first.
    change (concat (repeat (available iminuit match methods with Some ms => ms | None => default_methods end) tries)) with l.
    split.
    - intros m Hne Hm. destruct (exists_last Hne) as (l1 & m1 & E). rewrite E in *.
      rewrite app_length in *. cbn [length] in *. replace (length l1 + 1 - 1)%nat with (length l1) in * by lia.
      rewrite nth_error_app2, Nat.sub_diag in Hm by lia. cbn in Hm. injection Hm as <-.
      rewrite (first_fail minimize f x0 l1 0 None m1 Hf). reflexivity.
    - intros ->. reflexivity.
  Qed.
  Lemma maximize_eq : forall minimize iminuit f x0 methods tries,
    maximize_robust minimize iminuit f x0 methods tries =
    match minimize_robust minimize iminuit (fun x => - f x) x0 methods tries with
    | Ok o => Ok (mkOpt (o_success o) (- o_fun o) (o_x o))
    | Err e => Err e
    end.
  Proof. reflexivity. Qed.
  (** maximising makes the same attempts with the negative function, and returns the value with its sign *)
  Theorem C57_maximize : forall minimize iminuit f x0 methods tries k m,
    let l := attempts iminuit (match methods with Some ms => ms | None => ["SLSQP"; "MIGRAD"; "BFGS"; "Nelder-Mead"]%string end) tries in
    let attempt m k := minimize (fun x => - f x) m x0 k in
    nth_error l k = Some m ->
    o_success (attempt m k) = true \/ k = (length l - 1)%nat ->
    (forall k' m', (k' < k)%nat -> nth_error l k' = Some m' -> o_success (attempt m' k') = false) ->
    exists o, maximize_robust minimize iminuit f x0 methods tries = Ok o /\
      o_success o = o_success (attempt m k) /\ o_fun o = - o_fun (attempt m k) /\ o_x o = o_x (attempt m k).
  Proof.
    intros minimize iminuit f x0 methods tries k m l attempt Hk Hs Hf. rewrite maximize_eq.
    assert (E : minimize_robust minimize iminuit (fun x => - f x) x0 methods tries = Ok (attempt m k)).
    { destruct (o_success (attempt m k)) eqn:Es; [now apply C57_first_success|].
      destruct Hs as [Hs|Hs]; [congruence|]. destruct (C57_no_success minimize iminuit (fun x => - f x) x0 methods tries) as [H _].
      - intros k' m' Hk'. destruct (Nat.eq_dec k' k) as [->|Hne].
        + unfold l in Hk. rewrite Hk in Hk'. injection Hk' as <-. exact Es.
        + apply (Hf k' m'); [|exact Hk']. assert (k' < length l)%nat by (apply nth_error_Some; unfold l; congruence). lia.
      - unfold attempt. subst k. apply H.
        + intros Hn. unfold l in Hk. rewrite Hn in Hk. discriminate.
        + exact Hk. }
    rewrite E. eexists. split; [reflexivity|]. cbn. auto.
  Qed.
  (** if the optimisers report the value of their function, the maximisation reports the value of the function given *)
  Theorem C57_value : forall minimize iminuit f x0 methods tries o,
    (forall g m x n, o_fun (minimize g m x n) = g (o_x (minimize g m x n))) ->
    (minimize_robust minimize iminuit f x0 methods tries = Ok o -> o_fun o = f (o_x o)) /\
    (maximize_robust minimize iminuit f x0 methods tries = Ok o -> o_fun o = f (o_x o)).
  Proof.
    intros minimize iminuit f x0 methods tries o Hv.
    assert (G : forall g o, minimize_robust minimize iminuit g x0 methods tries = Ok o -> o_fun o = g (o_x o)).
    { intros g o' H. unfold minimize_robust in H. rewrite tries_first in H.
      assert (F : forall l n last, (forall o, last = Some o -> o_fun o = g (o_x o)) ->
         match first minimize g x0 l n last with inl o => o_fun o = g (o_x o) | inr (Some o) => o_fun o = g (o_x o) | inr None => True end).
      { induction l as [|m l IH]; intros n last Hl; cbn [first].
        - destruct last; auto.
        - destruct (o_success _); [apply Hv|]. apply IH. intros o1 [= <-]. apply Hv. }
      specialize (F (concat (repeat (available iminuit match methods with Some ms => ms | None => default_methods end) tries)) 0%nat None ltac:(discriminate)).
      destruct (first _ _ _ _ _ _) as [o1|[o1|]]; try discriminate; injection H as <-; exact F. }
    split; [apply G|]. rewrite maximize_eq. intros H.
    destruct (minimize_robust _ _ _ _ _ _) as [o1|] eqn:E; [|discriminate]. injection H as <-. cbn [o_fun o_x].
    rewrite (G _ _ E). ring.
  Qed.
End C57.

(** *** C104: unsuccessful attempts are not continued *)
(** What every attempt returns depends on the initial point alone, not on the end points of the earlier attempts
    (as documented); with an optimiser that needs two steps, the minimum is not found in any number of tries. *)
Definition walker (f : R -> R) (m : string) (x : R) (n : nat) : opt R :=
  mkOpt (if Rle_dec x 1 then true else false) (f (x - 1)) (x - 1).
Theorem C104_restart_refuted :
  (forall tries n, minimize_robust walker true (fun x => Rabs x) 2 None (Datatypes.S tries) = Ok (walker (fun x => Rabs x) "SLSQP" 2 n) /\
    o_success (walker (fun x => Rabs x) "SLSQP" 2 n) = false) /\
    (forall m n, o_success (walker (fun x => Rabs x) m (o_x (walker (fun x => Rabs x) "SLSQP" 2 n)) (Datatypes.S n)) = true).
Proof.
  assert (W : forall m n, walker (fun x => Rabs x) m 2 n = mkOpt false (Rabs (2 - 1)) (2 - 1)).
  { intros. unfold walker. destruct (Rle_dec 2 1); [lra|reflexivity]. }
  split.
  - intros tries n. split; [|now rewrite W].
    pose proof (C57_no_success walker true (fun x => Rabs x) 2 None (Datatypes.S tries)) as H. cbv zeta in H.
    set (l := attempts true _ (Datatypes.S tries)) in *.
    destruct H as [H _]; [intros; now rewrite W|].
    assert (Hl : l <> []) by discriminate.
    destruct (nth_error l (length l - 1)) as [m|] eqn:E.
    + rewrite (H m Hl eq_refl), !W. reflexivity.
    + apply nth_error_None in E. destruct l; [congruence|]. cbn in E. lia.
  - intros m n. rewrite W. unfold walker. cbn. destruct (Rle_dec (2 - 1) 1); [reflexivity|lra].
Qed.

(** *** C105: pulls and confidence levels *)
(** The cumulative distribution functions increase, and the quantile functions are their inverses. *)
Definition inverse_on (P Q : R -> Prop) (f g : R -> R) : Prop :=
  (forall x, P x -> Q (f x) /\ g (f x) = x) /\ (forall y, Q y -> P (g y) /\ f (g y) = y).
Theorem C105_inverse : forall cdf ppf chi2_cdf chi2_ppf dof,
  inverse_on (fun x => 0 <= x) (fun p => 1 / 2 <= p < 1) cdf ppf ->
  inverse_on (fun x => 0 <= x) (fun p => 0 <= p < 1) (chi2_cdf dof) (chi2_ppf dof) ->
  (forall n, 0 <= n -> 0 <= delta_chi2 cdf chi2_ppf n dof /\ pull ppf chi2_cdf (delta_chi2 cdf chi2_ppf n dof) dof = n) /\
    (forall d, 0 <= d -> 0 <= pull ppf chi2_cdf d dof /\ delta_chi2 cdf chi2_ppf (pull ppf chi2_cdf d dof) dof = d).
Proof.
  intros cdf ppf ccdf cppf dof [N1 N2] [K1 K2]. unfold delta_chi2, pull, confidence_level.
  destruct (Req_EM_T dof 1) as [He|He].
  - split.
    + intros n Hn. split; [apply pow2_ge_0|]. rewrite Rabs_right by (apply Rle_ge, pow2_ge_0). now apply sqrt_pow2.
    + intros d Hd. split; [apply sqrt_pos|]. rewrite Rabs_right by lra. now apply pow2_sqrt.
  - split.
    + intros n Hn. destruct (N1 n Hn) as [Hc Hp]. destruct (K2 ((cdf n - 0.5) * 2)) as [Hk Hk']; [lra|]. split; [exact Hk|].
      rewrite Hk'. replace (0.5 + (cdf n - 0.5) * 2 / 2) with (cdf n) by lra. exact Hp.
    + intros d Hd. destruct (K1 d Hd) as [Hc Hp]. destruct (N2 (0.5 + ccdf dof d / 2)) as [Hk Hk']; [lra|]. split; [exact Hk|].
      rewrite Hk'. replace ((0.5 + ccdf dof d / 2 - 0.5) * 2) with (ccdf dof d) by lra. exact Hp.
Qed.
(** The p-value is the complement of the confidence level of the pull. *)
Theorem C105_pvalue : forall cdf ppf chi2_cdf dof c,
  inverse_on (fun x => 0 <= x) (fun p => 1 / 2 <= p < 1) cdf ppf -> 0 <= chi2_cdf dof c < 1 -> dof <> 1 ->
  pvalue chi2_cdf c dof = 1 - confidence_level cdf (pull ppf chi2_cdf c dof).
Proof.
  intros cdf ppf ccdf dof c [_ N2] Hc Hd. unfold pvalue, confidence_level, pull. destruct (Req_EM_T dof 1); [contradiction|].
  destruct (N2 (0.5 + ccdf dof c / 2)) as [_ E]; [lra|]. rewrite E. lra.
Qed.
(** With one degree of freedom, if the square of a normal variable has the chi-squared distribution, the branch for
    one degree of freedom gives what the general formula would give. *)
Theorem C105_one : forall cdf ppf chi2_cdf n,
  inverse_on (fun x => 0 <= x) (fun p => 1 / 2 <= p < 1) cdf ppf ->
  (forall n, 0 <= n -> chi2_cdf 1 (n ^ 2) = 2 * cdf n - 1) -> 0 <= n ->
  pull ppf chi2_cdf (n ^ 2) 1 = ppf (1 / 2 + chi2_cdf 1 (n ^ 2) / 2) /\
    pvalue chi2_cdf (n ^ 2) 1 = 1 - confidence_level cdf (pull ppf chi2_cdf (n ^ 2) 1).
Proof.
  intros cdf ppf ccdf n [N1 _] Hq Hn. unfold pull, pvalue, confidence_level. destruct (Req_EM_T 1 1) as [_|]; [|congruence].
  rewrite Rabs_right by (apply Rle_ge, pow2_ge_0). rewrite sqrt_pow2 by assumption. rewrite Hq by assumption.
  destruct (N1 n Hn) as [_ E]. split; [|lra]. replace (1 / 2 + (2 * cdf n - 1) / 2) with (cdf n) by lra. now rewrite E.
Qed.

(** *** C106: negative differences *)
(** A negative difference gets a positive pull with one degree of freedom and a vanishing one otherwise. *)
Theorem C106_negative_refuted : forall cdf ppf chi2_cdf d,
  inverse_on (fun x => 0 <= x) (fun p => 1 / 2 <= p < 1) cdf ppf -> cdf 0 = 1 / 2 -> (forall dof x, x <= 0 -> chi2_cdf dof x = 0) -> d < 0 ->
  pull ppf chi2_cdf d 1 = pull ppf chi2_cdf (- d) 1 /\ 0 < pull ppf chi2_cdf d 1 /\
    (forall dof, dof <> 1 -> pull ppf chi2_cdf d dof = 0).
Proof.
  intros cdf ppf ccdf d [N1 _] H0 Hc Hd. unfold pull. destruct (Req_EM_T 1 1) as [_|]; [|congruence]. rewrite Rabs_Ropp. repeat split.
  - apply sqrt_lt_R0. apply Rabs_pos_lt. lra.
  - intros dof Hn. destruct (Req_EM_T dof 1); [contradiction|]. rewrite Hc by lra. replace (0.5 + 0 / 2) with (cdf 0) by lra. apply N1. lra.
Qed.

(** *** Cases *)
(** the Householder matrix 1 - 2/3 J: unitary without vanishing elements *)
Definition householder (k i : nat) : C := if Nat.eqb k i then RtoC (1 / 3) else RtoC (- 2 / 3).
Example C52_example : unitary householder /\ (forall k, (k < 3)%nat -> householder k 0%nat <> RtoC 0 /\ householder k 2%nat <> RtoC 0).
Proof.
  split.
  - split; intros i j Hi Hj; destruct i as [|[|[|i]]]; try (exfalso; lia); destruct j as [|[|[|j]]]; try (exfalso; lia);
    unfold householder, delta; cbn [Nat.eqb]; unfold Cplus, Cmult, Cconj, RtoC; cbn [fst snd]; apply injective_projections; cbn [fst snd]; field.
  - intros k Hk. destruct k as [|[|[|k]]]; try (exfalso; lia); unfold householder; cbn [Nat.eqb]; unfold RtoC; split; intros E; injection E as E; lra.
Qed.
(** the standard parametrisation is unitary and meets the hypothesis of [C53_ckm] *)
Example C53_example : forall t12 t13 t23 d, unitary (standard t12 t13 t23 d) /\
    (forall k i, standard t12 t13 t23 (- d) k i = Cconj (standard t12 t13 t23 d k i)).
Proof. intros. split; [apply standard_unitary|intros; apply standard_conj]. Qed.
Example C54_example : Forall (fun d => NoDup (map fst d)) [[("a", 1); ("b", 2); ("c", 3)]; [("b", 3); ("c", 4); ("d", 5)]]%string /\
    add_dict [[("a", 1); ("b", 2); ("c", 3)]; [("b", 3); ("c", 4); ("d", 5)]]%string = Ok [("a", 1); ("b", 3 + 2); ("c", 4 + 3); ("d", 5 + 0)]%string.
Proof.
  split; [|reflexivity]. repeat apply Forall_cons; try apply Forall_nil; cbn; repeat (constructor; [intros H; cbn in H; intuition discriminate|]); constructor.
Qed.
Example C57_example : let l := attempts false ["SLSQP"; "MIGRAD"; "BFGS"; "Nelder-Mead"]%string 2 in
  l = ["SLSQP"; "BFGS"; "Nelder-Mead"; "SLSQP"; "BFGS"; "Nelder-Mead"]%string.
Proof. reflexivity. Qed.
(** an instance of the hypotheses of C105 and C106 *)
Definition acdf (x : R) : R := 1 / 2 + atan x / PI.
Definition appf (p : R) : R := tan (PI * (p - 1 / 2)).
Definition aq (dof x : R) : R := if Rle_dec x 0 then 0 else x / (x + 1).
Lemma acdf_inverse : inverse_on (fun x => 0 <= x) (fun p => 1 / 2 <= p < 1) acdf appf.
Proof.
  pose proof PI_RGT_0 as HP. split.
  - intros x Hx. assert (B : 0 <= atan x).
    { destruct (Req_dec x 0) as [->|]; [rewrite atan_0; lra|]. left. rewrite <- atan_0. apply atan_increasing. lra. }
    pose proof (atan_bound x) as B'. unfold acdf, appf.
    assert (Q : 0 <= atan x / PI < 1 / 2).
    { split; [apply Rmult_le_pos; [lra|left; now apply Rinv_0_lt_compat]|]. apply Rmult_lt_reg_r with PI; [lra|]. unfold Rdiv at 1. rewrite Rmult_assoc, Rinv_l by lra. lra. }
    split; [lra|]. replace (PI * (1 / 2 + atan x / PI - 1 / 2)) with (atan x) by (field; lra). apply tan_atan.
  - intros p Hp. unfold acdf, appf. assert (B : 0 <= PI * (p - 1 / 2) < PI / 2) by (split; nra). split.
    + destruct (Req_dec (PI * (p - 1 / 2)) 0) as [->|]; [rewrite tan_0; lra|]. left. apply tan_gt_0; lra.
    + rewrite atan_tan by lra. field. lra.
Qed.
Example C105_example : exists cdf ppf (chi2_cdf chi2_ppf : R -> R -> R),
  inverse_on (fun x => 0 <= x) (fun p => 1 / 2 <= p < 1) cdf ppf /\ cdf 0 = 1 / 2 /\
    (forall dof, inverse_on (fun x => 0 <= x) (fun p => 0 <= p < 1) (chi2_cdf dof) (chi2_ppf dof)) /\ (forall dof x, x <= 0 -> chi2_cdf dof x = 0).
Proof.
  exists acdf, appf, aq, (fun _ p => p / (1 - p)). split; [apply acdf_inverse|]. split; [unfold acdf; rewrite atan_0; field; apply PI_neq0|]. split.
  - intros dof. split.
    + intros x Hx. unfold aq. destruct (Rle_dec x 0).
      * replace x with 0 by lra. split; [lra|field].
      * split; [|field; lra]. split; [apply Rmult_le_pos; [lra|left; apply Rinv_0_lt_compat; lra]|].
        apply Rmult_lt_reg_r with (x + 1); [lra|]. unfold Rdiv. rewrite Rmult_assoc, Rinv_l by lra. lra.
    + intros y Hy. assert (0 <= y / (1 - y)) by (apply Rmult_le_pos; [lra|left; apply Rinv_0_lt_compat; lra]). split; [assumption|].
      unfold aq. destruct (Rle_dec (y / (1 - y)) 0).
      * assert (y / (1 - y) = 0) by lra. replace y with (y / (1 - y) * (1 - y)) by (field; lra). rewrite H0. ring.
      * field. lra.
  - intros dof x Hx. unfold aq. destruct (Rle_dec x 0); [reflexivity|lra].
Qed.

Print Assumptions C52_unitarity.
Print Assumptions C52_angles.
Print Assumptions C53_ckm.
Print Assumptions C54_add_order.
Print Assumptions C57_no_success.
Print Assumptions C103_symbols.
Print Assumptions C104_restart_refuted.
Print Assumptions C105_inverse.
