From Coq Require Import QArith Qcanon.
From Verif Require Import Base BaseLemmas Regex Parsing_Model Parsing_Spec.
Close Scope Q_scope. Close Scope Qc_scope.

(** ** Powers of ten *)
Lemma Z2Qc_this z : this (Z2Qc z) = inject_Z z.
Proof.
  unfold Z2Qc, Q2Qc. cbn [this]. apply Qred_identity. cbn. apply Z.gcd_1_r.
Qed.
Lemma Z2Qc_mul a b : Z2Qc (a * b) = Qcmult (Z2Qc a) (Z2Qc b).
Proof.
  apply Qc_is_canon. unfold Qcmult. rewrite Z2Qc_this. cbn [this Q2Qc].
  rewrite Qred_correct, !Z2Qc_this. rewrite inject_Z_mult. reflexivity.
Qed.
Lemma Z2Qc_add a b : Z2Qc (a + b) = Qcplus (Z2Qc a) (Z2Qc b).
Proof.
  apply Qc_is_canon. unfold Qcplus. rewrite Z2Qc_this. cbn [this Q2Qc].
  rewrite Qred_correct, !Z2Qc_this. rewrite inject_Z_plus. reflexivity.
Qed.
Lemma Z2Qc_opp a : Z2Qc (- a) = Qcopp (Z2Qc a).
Proof.
  apply Qc_is_canon. unfold Qcopp. rewrite Z2Qc_this. cbn [this Q2Qc].
  rewrite Qred_correct, !Z2Qc_this. rewrite inject_Z_opp. reflexivity.
Qed.
Lemma Z2Qc_inj a b : Z2Qc a = Z2Qc b -> a = b.
Proof. intro H. apply (f_equal this) in H. rewrite !Z2Qc_this in H. now injection H. Qed.
Lemma Z2Qc_neq0 a : a <> 0%Z -> Z2Qc a <> c0.
Proof. intros H E. apply H. now apply Z2Qc_inj. Qed.
Lemma ten_neq0 n : (0 <= n)%Z -> Z2Qc (10 ^ n) <> c0.
Proof. intro H. apply Z2Qc_neq0. pose proof (Z.pow_pos_nonneg 10 n). lia. Qed.
Lemma c0_eq : c0 = 0%Qc. Proof. apply Qc_is_canon. reflexivity. Qed.
Lemma c1_eq : c1 = 1%Qc. Proof. apply Qc_is_canon. reflexivity. Qed.

Lemma p10_0 : p10 0 = c1.
Proof. reflexivity. Qed.
Lemma p10_nonneg e : (0 <= e)%Z -> p10 e = Z2Qc (10 ^ e).
Proof. intro H. unfold p10. now rewrite (proj2 (Z.leb_le 0 e) H). Qed.
Lemma p10_neg e : (0 <= e)%Z -> p10 (- e) = Qcinv (Z2Qc (10 ^ e)).
Proof.
  intro H. unfold p10. destruct (Z.leb_spec 0 (- e)).
  - assert (e = 0%Z) by lia. subst. apply Qc_is_canon. reflexivity.
  - now rewrite Z.opp_involutive.
Qed.
Lemma p10_neq0 e : p10 e <> c0.
Proof.
  unfold p10. destruct (Z.leb_spec 0 e); [apply ten_neq0; lia|].
  assert (Hn := ten_neq0 (- e) ltac:(lia)). intro E. rewrite c0_eq in *.
  apply (f_equal (Qcmult (Z2Qc (10 ^ (- e))))) in E. rewrite Qcmult_inv_r in E by exact Hn.
  rewrite Qcmult_0_r in E. discriminate.
Qed.
Lemma p10_succ e : p10 (e + 1) = Qcmult (Z2Qc 10) (p10 e).
Proof.
  destruct (Z.le_gt_cases 0 e) as [H|H].
  - rewrite !p10_nonneg by lia. rewrite Z.pow_add_r, <- Z2Qc_mul by lia. f_equal. lia.
  - assert (exists k, (0 <= k)%Z /\ e = (- (k + 1))%Z) as [k [Hk ->]] by (exists (- e - 1)%Z; lia).
    replace (- (k + 1) + 1)%Z with (- k)%Z by lia. rewrite !p10_neg by lia.
    rewrite Z.pow_add_r, Z2Qc_mul by lia. change (10 ^ 1)%Z with 10%Z.
    assert (H1 := ten_neq0 k Hk). assert (H2 : Z2Qc 10 <> c0) by (apply Z2Qc_neq0; lia).
    rewrite c0_eq in *. field. split; assumption.
Qed.
Lemma p10_add a b : p10 (a + b) = Qcmult (p10 a) (p10 b).
Proof.
  assert (Hnat : forall n a, p10 (a + Z.of_nat n) = Qcmult (p10 a) (p10 (Z.of_nat n))).
  { induction n as [|n IH]; intro x.
    - rewrite Z.add_0_r. cbn [Z.of_nat]. rewrite p10_0, c1_eq. ring.
    - rewrite Nat2Z.inj_succ. unfold Z.succ. rewrite Z.add_assoc, !p10_succ, IH. ring. }
  destruct (Z.le_gt_cases 0 b) as [H|H].
  - rewrite <- (Z2Nat.id b H). apply Hnat.
  - assert (Hb : exists n, b = (- Z.of_nat n)%Z) by (exists (Z.to_nat (- b)); lia). destruct Hb as [n ->].
    assert (E1 := Hnat n (a + - Z.of_nat n)%Z). replace (a + - Z.of_nat n + Z.of_nat n)%Z with a in E1 by lia.
    assert (E2 := Hnat n (- Z.of_nat n)%Z). replace (- Z.of_nat n + Z.of_nat n)%Z with 0%Z in E2 by lia.
    rewrite p10_0, c1_eq in E2. rewrite E1.
    transitivity (Qcmult (p10 (a + - Z.of_nat n)) (Qcmult (p10 (- Z.of_nat n)) (p10 (Z.of_nat n)))); [rewrite <- E2; ring|ring].
Qed.

(** ** Digits *)
Lemma dec_app_acc s : forall a, fold_left (fun a c => (10 * a + digit_val c)%Z) s a =
  (a * 10 ^ Z.of_nat (length s) + digits_value s)%Z.
Proof.
  induction s as [|d s IH]; intro a; [cbn; lia|]. cbn [fold_left]. rewrite IH. cbn [length digits_value].
  rewrite Nat2Z.inj_succ, Z.pow_succ_r by lia. unfold digit_val. ring.
Qed.
Lemma dec_eq s : dec s = digits_value s.
Proof. unfold dec. rewrite dec_app_acc. lia. Qed.

Lemma digit_not_us c : is_digit c = true -> eqb c 95%N = false.
Proof. unfold is_digit. intro H. apply neq_eqb. intros ->. discriminate. Qed.
Definition head_ok (s : str) : Prop :=
  match s with [] => True | x :: _ => is_digit x = false /\ x <> 95%N end.
Lemma scan_digits_app d rest : digits d -> head_ok rest -> scan_digits (d ++ rest) = (d, rest).
Proof.
  intros Hd Hr. induction Hd as [|x d Hx Hd IH].
  - cbn [app]. destruct rest as [|y r]; [reflexivity|]. cbn [scan_digits]. destruct Hr as [Hy _]. now rewrite Hy.
  - cbn [app scan_digits]. rewrite Hx.
    assert (E : forall y z l, d ++ rest = y :: z :: l -> eqb y 95%N && is_digit z = false).
    { intros y z l Hyz. destruct d as [|y' d].
      - cbn [app] in Hyz. subst rest. destruct Hr as [_ Hu]. rewrite (neq_eqb Hu). reflexivity.
      - injection Hyz as -> _. inversion Hd; subst. rewrite digit_not_us by assumption. reflexivity. }
    destruct (d ++ rest) as [|y [|z l]] eqn:Edr.
    + rewrite IH. reflexivity.
    + rewrite IH. reflexivity.
    + rewrite (E y z l eq_refl), IH. reflexivity.
Qed.

(** ** strip *)
Lemma lstrip_spaces a b : spaces a -> lstrip (a ++ b) = lstrip b.
Proof. intro H. induction H as [|x a Hx Ha IH]; [reflexivity|]. cbn [app lstrip]. now rewrite Hx. Qed.
Lemma lstrip_head x s : is_space x = false -> lstrip (x :: s) = x :: s.
Proof. intro H. cbn [lstrip]. now rewrite H. Qed.
Lemma spaces_rev a : spaces a -> spaces (rev a).
Proof. intro H. apply Forall_rev. exact H. Qed.
Lemma spaces_app a b : spaces (a ++ b) <-> spaces a /\ spaces b.
Proof. apply Forall_app. Qed.
Lemma digits_app a b : digits (a ++ b) <-> digits a /\ digits b.
Proof. apply Forall_app. Qed.
(** leading part kept exactly, if it starts with and is followed by non-spaces *)
Lemma strip_keep a x s y z : spaces a -> is_space x = false -> is_space y = false ->
  exists z', strip (a ++ (x :: s) ++ y :: z) = (x :: s) ++ y :: z'.
Proof.
  intros Ha Hx Hy. unfold strip. rewrite lstrip_spaces by assumption. cbn [app]. rewrite lstrip_head by assumption.
  change (x :: s ++ y :: z) with ((x :: s) ++ y :: z). rewrite rev_app_distr. cbn [rev]. rewrite <- app_assoc. cbn [app].
  assert (G : forall w, exists w', lstrip (w ++ y :: rev s ++ [x]) = w' ++ y :: rev s ++ [x]).
  { induction w as [|u w [w' IH]].
    - exists []. cbn [app]. now rewrite lstrip_head.
    - cbn [app lstrip]. destruct (is_space u); [exists w'; exact IH|]. exists (u :: w). reflexivity. }
  destruct (G (rev z)) as [w' E]. rewrite E. exists (rev w').
  rewrite rev_app_distr. cbn [rev]. rewrite rev_app_distr, rev_involutive. cbn [rev app]. rewrite <- !app_assoc. reflexivity.
Qed.
(** a core that starts and ends with non-spaces *)
Lemma strip_core a x s b : spaces a -> spaces b -> is_space x = false -> is_space (last (x :: s) 0%N) = false ->
  strip (a ++ (x :: s) ++ b) = x :: s.
Proof.
  intros Ha Hb Hx Hl. unfold strip. rewrite lstrip_spaces by assumption. cbn [app]. rewrite lstrip_head by assumption.
  change (x :: s ++ b) with ((x :: s) ++ b). rewrite rev_app_distr, lstrip_spaces by now apply spaces_rev.
  destruct (exists_last (l := x :: s)) as [l [y E]]; [discriminate|]. rewrite E in Hl |- *.
  rewrite last_last in Hl. rewrite rev_app_distr. cbn [rev app]. rewrite lstrip_head by assumption.
  cbn [rev]. rewrite rev_involutive. reflexivity.
Qed.

Lemma digit_not_space c : is_digit c = true -> is_space c = false.
Proof.
  unfold is_digit. intro H. apply andb_true_iff in H. destruct H as [H1 H2].
  apply N.leb_le in H1. apply N.leb_le in H2. apply (proj2 (memb_notIn c _)). intro Hin.
  repeat (destruct Hin as [<-|Hin]; [lia|]). destruct Hin.
Qed.

(** a character is none of some others *)
Lemma digit_range c : is_digit c = true -> (48 <= c <= 57)%N.
Proof. unfold is_digit. intro H. apply andb_true_iff in H. destruct H as [H1 H2].
  apply N.leb_le in H1. apply N.leb_le in H2. lia. Qed.

(** ** Numbers *)
Lemma number_head n : wf_number n -> exists d s, show_number n = d :: s /\ is_digit d = true.
Proof.
  intros (Hne & Hd & _). unfold show_number. destruct (ip n) as [|d s]; [congruence|].
  exists d. eexists. split; [reflexivity|]. inversion Hd; assumption.
Qed.
Lemma last_cons_app {A} (x : A) s t d : t <> [] -> last (x :: s ++ t) d = last t d.
Proof.
  intro H. destruct (exists_last H) as [t' [y ->]]. rewrite app_comm_cons, app_assoc, !last_last. reflexivity.
Qed.
Lemma last_app {A} (s t : list A) d : t <> [] -> last (s ++ t) d = last t d.
Proof. intro H. destruct (exists_last H) as [t' [y ->]]. rewrite app_assoc, !last_last. reflexivity. Qed.
Lemma digits_last s : digits s -> s <> [] -> is_space (last s 0%N) = false.
Proof.
  intros H Hne. destruct (exists_last Hne) as [t [y ->]]. rewrite last_last. apply digit_not_space.
  apply digits_app in H. destruct H as [_ H]. inversion H; assumption.
Qed.
Lemma number_last n : wf_number n -> is_space (last (show_number n) 0%N) = false.
Proof.
  intros (Hne & Hd & Hf). unfold show_number, frac_digits in *. destruct (frac n) as [f|].
  - rewrite last_app by discriminate. destruct f as [|y f]; [reflexivity|].
    change (46%N :: y :: f) with ([46%N] ++ y :: f). rewrite last_app by discriminate. apply digits_last; [assumption|discriminate].
  - rewrite app_nil_r. now apply digits_last.
Qed.

Definition num_stop (s : str) : Prop :=
  match s with [] => True | x :: _ => is_digit x = false /\ x <> 95%N /\ x <> 46%N end.

Lemma scan_number_show n rest : wf_number n -> num_stop rest ->
  scan_number (show_number n ++ rest) =
  match scan_exp rest with
  | Some e => Some (Qcmult (Z2Qc (digits_value (ip n ++ frac_digits n))) (p10 (e - Z.of_nat (length (frac_digits n)))))
  | None => None
  end.
Proof.
  intros (Hne & Hd & Hf) Hr. unfold scan_number, show_number, frac_digits in *. destruct (frac n) as [f|].
  - rewrite <- app_assoc. rewrite scan_digits_app; [|assumption|cbn; split; [reflexivity|discriminate]].
    cbn [app]. rewrite scan_digits_app; [|assumption|].
    + destruct (ip n ++ f) eqn:E; [destruct (ip n); [congruence|discriminate]|]. rewrite <- E, dec_eq. reflexivity.
    + destruct rest; [exact I|]. cbn in *. tauto.
  - rewrite app_nil_r. rewrite scan_digits_app; [|assumption|].
    + assert (E : match rest with 46%N :: r1 => scan_digits r1 | _ => ([], rest) end = ([] : str, rest)).
      { destruct rest as [|x r]; [reflexivity|]. destruct Hr as (_ & _ & Hx).
        destruct x as [|p]; [reflexivity|]. do 6 (try (destruct p as [p|p|]; try reflexivity)). congruence. }
      rewrite E. rewrite app_nil_r. destruct (ip n) eqn:Ei; [congruence|]. rewrite dec_eq. reflexivity.
    + destruct rest; [exact I|]. cbn in *. tauto.
Qed.

Lemma expo_scan e : wf_expo e -> scan_exp (show_expo e) = Some (expo_value e).
Proof.
  intros (Hc & Hne & Hd). unfold show_expo, scan_exp, expo_value.
  assert (Hm : memb (e_char e) eE = true) by (apply memb_In; exact Hc). rewrite Hm.
  assert (Hs : scan_digits (e_digits e) = (e_digits e, [])).
  { rewrite <- (app_nil_r (e_digits e)) at 1. apply scan_digits_app; [assumption|exact I]. }
  assert (Ht : take_sign (show_sign (e_sign e) ++ e_digits e) =
               (match e_sign e with Some true => true | _ => false end, e_digits e)).
  { destruct (e_sign e) as [[|]|]; try reflexivity. cbn [show_sign app]. destruct (e_digits e) as [|x d]; [congruence|].
    assert (Hx : (48 <= x <= 57)%N) by (apply digit_range; inversion Hd; assumption).
    destruct x as [|p]; [reflexivity|]. unfold take_sign.
    do 6 (try (destruct p as [p|p|]; try reflexivity)); lia. }
  rewrite Ht, Hs. destruct (e_digits e) as [|x d] eqn:E; [congruence|]. rewrite dec_eq.
  destruct (e_sign e) as [[|]|]; reflexivity.
Qed.

(** float(...) of a signed number with optional exponent, spaces around *)
Lemma take_sign_show (s : option bool) d r : is_digit d = true ->
  take_sign (show_sign s ++ d :: r) = (match s with Some true => true | _ => false end, d :: r).
Proof.
  intro Hd. destruct s as [[|]|]; try reflexivity. cbn [show_sign app].
  apply digit_range in Hd. destruct d as [|p]; [reflexivity|]. unfold take_sign.
  do 6 (try (destruct p as [p|p|]; try reflexivity)); lia.
Qed.
Lemma lower_digit d : is_digit d = true -> lower d = d.
Proof.
  intro H. apply digit_range in H. unfold lower. destruct (N.leb_spec 65 d); [lia|reflexivity].
Qed.
Lemma not_word d r : is_digit d = true ->
  (eqb (map lower (d :: r)) (lit "inf") || eqb (map lower (d :: r)) (lit "infinity") = false) /\
  eqb (map lower (d :: r)) (lit "nan") = false.
Proof.
  intro H. cbn [map]. rewrite (lower_digit d H). apply digit_range in H.
  assert (Hne : forall w, (forall t, w <> d :: t) -> eqb (d :: map lower r) w = false).
  { intros w Hw. apply neq_eqb. intro E. symmetry in E. exact (Hw _ E). }
  rewrite !Hne; auto; intros t E; injection E as E _; vm_compute in E; lia.
Qed.
Lemma sign_nospace s d r : is_digit d = true -> exists x t, show_sign s ++ d :: r = x :: t /\ is_space x = false.
Proof.
  intro H. destruct s as [[|]|]; cbn [show_sign app]; eexists _, _; split; try reflexivity.
  now apply digit_not_space.
Qed.
Lemma signQ_mul s a b : Qcmult (signQ s a) b = signQ s (Qcmult a b).
Proof. destruct s as [[|]|]; cbn [signQ]; ring. Qed.

Lemma value_p10 n : number_value n = Qcmult (Z2Qc (digits_value (ip n ++ frac_digits n))) (p10 (- Z.of_nat (length (frac_digits n)))).
Proof. unfold number_value, Qcdiv. now rewrite p10_neg by lia. Qed.

Lemma float_show a s n e b : spaces a -> wf_number n -> opt_wf wf_expo e -> spaces b ->
  py_float (a ++ ((show_sign s ++ show_number n) ++ opt_show show_expo e) ++ b) = Some (Fin (scaled s n e)).
Proof.
  intros Ha Hn He Hb. destruct (number_head n Hn) as [d [r [Ed Hd]]].
  set (core := (show_sign s ++ show_number n) ++ opt_show show_expo e).
  assert (Ecore : core = show_sign s ++ d :: r ++ opt_show show_expo e).
  { subst core. rewrite Ed, <- app_assoc. reflexivity. }
  assert (Hst : strip (a ++ core ++ b) = core).
  { destruct (sign_nospace s d (r ++ opt_show show_expo e) Hd) as [x [t [E Hx]]]. rewrite Ecore, E.
    apply strip_core; auto. rewrite <- E, <- Ecore. subst core. destruct e as [e|]; cbn [opt_show].
    - rewrite last_app by discriminate.
      destruct He as (Hc & Hne & Hdg). unfold show_expo.
      change (e_char e :: show_sign (e_sign e) ++ e_digits e) with ((e_char e :: show_sign (e_sign e)) ++ e_digits e).
      rewrite last_app by assumption. now apply digits_last.
    - rewrite app_nil_r. rewrite last_app by (rewrite Ed; discriminate). now apply number_last. }
  unfold py_float. rewrite Hst, Ecore.
  rewrite take_sign_show by assumption.
  destruct (not_word d (r ++ opt_show show_expo e) Hd) as [W1 W2]. rewrite W1, W2.
  change (d :: r ++ opt_show show_expo e) with ((d :: r) ++ opt_show show_expo e). rewrite <- Ed.
  rewrite scan_number_show; [|assumption|].
  - assert (Hx : scan_exp (opt_show show_expo e) = Some (opt_expo_value e)).
    { destruct e as [e|]; [|reflexivity]. now apply expo_scan. }
    rewrite Hx. unfold scaled. rewrite signQ_mul, value_p10. f_equal. f_equal.
    replace (opt_expo_value e - Z.of_nat (length (frac_digits n)))%Z with
            (- Z.of_nat (length (frac_digits n)) + opt_expo_value e)%Z by lia.
    rewrite p10_add, Qcmult_assoc. destruct s as [[|]|]; reflexivity.
  - destruct e as [e|]; [|exact I]. destruct He as (Hc & _). unfold show_expo. cbn [opt_show num_stop].
    destruct Hc as [<-|[<-|[]]]; repeat split; discriminate.
Qed.

Lemma float_of_show s n : wf_number n -> float_of (show_sign s ++ show_number n) = Ok (signQ s (number_value n)).
Proof.
  intro Hn. unfold float_of. pose proof (float_show [] s n None [] (Forall_nil _) Hn I (Forall_nil _)) as H.
  cbn [app opt_show] in H. rewrite !app_nil_r in H. rewrite H. unfold scaled. cbn [opt_expo_value].
  rewrite p10_0, c1_eq. f_equal. ring.
Qed.
Lemma float_of_spaces a n : spaces a -> wf_number n -> float_of (a ++ show_number n) = Ok (number_value n).
Proof.
  intros Ha Hn. unfold float_of. pose proof (float_show a None n None [] Ha Hn I (Forall_nil _)) as H.
  cbn [app opt_show show_sign] in H. rewrite !app_nil_r in H. rewrite H. unfold scaled. cbn [opt_expo_value signQ].
  rewrite p10_0, c1_eq. f_equal. ring.
Qed.
Lemma float_expo_show s n e : wf_number n -> opt_wf wf_expo e ->
  float_expo (show_sign s ++ show_number n) (option_map show_expo e) = Ok (scaled s n e).
Proof.
  intros Hn He. destruct e as [e|]; cbn [float_expo option_map].
  - unfold float_of. pose proof (float_show [] s n (Some e) [] (Forall_nil _) Hn He (Forall_nil _)) as H.
    cbn [app opt_show] in H. rewrite app_nil_r in H. now rewrite H.
  - rewrite float_of_show by assumption. unfold scaled. cbn [opt_expo_value]. rewrite p10_0, c1_eq. f_equal. ring.
Qed.

(** the overall factor *)
Lemma float_int s d : d <> [] -> digits d ->
  py_float (show_sign s ++ d) = Some (Fin (Z2Qc (signZ s (digits_value d)))).
Proof.
  intros Hne Hd. assert (Hn : wf_number (mkNum d None)) by (repeat split; cbn; auto; constructor).
  pose proof (float_show [] s (mkNum d None) None [] (Forall_nil _) Hn I (Forall_nil _)) as H.
  cbn [app opt_show] in H. rewrite !app_nil_r in H. unfold show_number in H. cbn [ip frac] in H. rewrite app_nil_r in H.
  rewrite H. unfold scaled. cbn [opt_expo_value]. rewrite p10_0, c1_eq, value_p10. cbn [frac_digits frac ip length].
  rewrite app_nil_r. cbn [Z.of_nat Z.opp]. rewrite p10_0, c1_eq. f_equal. f_equal.
  destruct s as [[|]|]; cbn [signQ signZ]; rewrite ?Z2Qc_opp; ring.
Qed.
Lemma overall_show p : wf_power p -> overall (Some (show_sign (p_sign p) ++ p_digits p)) = Ok (p10 (power_value p)).
Proof.
  intros (_ & Hne & Hd). unfold overall. rewrite float_int by assumption. rewrite Z2Qc_this. reflexivity.
Qed.
Lemma overall_opt o : opt_wf wf_power o ->
  overall (option_map (fun p => show_sign (p_sign p) ++ p_digits p) o) = Ok (p10 (opt_power_value o)).
Proof. destruct o as [p|]; intro H; [now apply overall_show|reflexivity]. Qed.
