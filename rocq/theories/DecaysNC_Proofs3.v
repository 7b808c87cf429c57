(** * Proofs for the neutral-current observables: the registered observables of B -> V l l *)
From Coq Require Import Reals Lra.
From Coquelicot Require Import Coquelicot.
From Verif Require Import Base Basics_Model Basics_Proofs Angular_Model Angular_Spec Angular_Proofs Angular_Proofs2 Angular_Proofs3 Angular_Proofs4 Angular_Proofs5 Angular_Proofs6 Angular_Proofs7 Angular_Proofs8 Angular_Proofs9 Decays_Model Decays_Spec Decays_Proofs Decays_Proofs2 Decays_Proofs3 Decays_Proofs4 Decays_Proofs5 DecaysNC_Model DecaysNC_Spec DecaysNC_Proofs.
Local Open Scope string_scope.
Local Open Scope R_scope.

Lemma total_is (J J' : jkey -> R) : total J J' = dGdq2 J + dGdq2 J'.
Proof. unfold total. rewrite !all_is. reflexivity. Qed.
Lemma linear_total : linear total.
Proof. apply (linear_ext (fun J J' => 1 * dGdq2 J + 1 * dGdq2 J')); [intros; rewrite total_is; ring | apply linear_rate]. Qed.
Lemma linear_ave : linear dGdq2_ave.
Proof. apply (linear_ext (fun J J' => 1 / 2 * dGdq2 J + 1 / 2 * dGdq2 J')); [intros; unfold dGdq2_ave; field | apply linear_rate]. Qed.
Section Ratio.
  Variable d : vll.
  Hypothesis W : vll_ok d.
  Lemma in_allowed q2 : thr d <= q2 <= top d -> allowed d q2 = true.
  Proof using. intros L. unfold allowed. fold (thr d) (top d). destruct (Rlt_dec q2 _); [lra |]. destruct (Rlt_dec _ q2); [lra | reflexivity]. Qed.
  Lemma out_allowed q2 : ~ (thr d <= q2 <= top d) -> allowed d q2 = false.
  Proof using. intros L. unfold allowed. fold (thr d) (top d). destruct (Rlt_dec q2 _); [reflexivity |]. destruct (Rlt_dec _ q2); [reflexivity | lra]. Qed.
  Variables (num den n e : (jkey -> R) -> (jkey -> R) -> R).
  Hypotheses (En : forall J J', num J J' = n J J') (Ee : forall J J', den J J' = e J J').
  Lemma ratio_at q2 : thr d <= q2 <= top d -> BVll_ratio d num den q2 = n (Jv d q2) (Jv' d q2) / e (Jv d q2) (Jv' d q2).
  Proof using En Ee. intros L. unfold BVll_ratio. rewrite in_allowed by exact L. cbn [negb]. rewrite ratio0_div. unfold jfunc. rewrite En, Ee. reflexivity. Qed.
  Lemma pprime_at q2 : (forall J J' : jkey -> R, e J J' = 2 * sqrt ((J J2s + J' J2s) * - (J J2c + J' J2c))) -> thr d <= q2 <= top d -> BVll_pprime d num q2 = n (Jv d q2) (Jv' d q2) / e (Jv d q2) (Jv' d q2).
  Proof using En.
    intros Q L. unfold BVll_pprime. rewrite in_allowed by exact L. cbn [negb]. rewrite ratio0_div. unfold jfunc. rewrite En, Q.
    unfold S_experiment_num, S_theory_num. cbn [signflip]. replace (- (j d q2 J2s + jbar d q2 J2s) * (j d q2 J2c + jbar d q2 J2c)) with ((j d q2 J2s + jbar d q2 J2s) * - (j d q2 J2c + jbar d q2 J2c)) by ring. reflexivity.
  Qed.
  Variables (a b : R).
  Notation I := (over (Jv d) (Rmax a (thr d)) (Rmin b (top d))).
  Notation I' := (over (Jv' d) (Rmax a (thr d)) (Rmin b (top d))).
  Lemma empty_false : Rmax a (thr d) < Rmin b (top d) -> empty_bin d a b = false.
  Proof using. intros L. unfold empty_bin, q2max_allowed, q2min_allowed. fold (thr d) (top d). rewrite (Rmin_comm (top d)), (Rmax_comm (thr d)). destruct (Rle_dec _ _); [lra | reflexivity]. Qed.
  Lemma empty_true : Rmin b (top d) <= Rmax a (thr d) -> empty_bin d a b = true.
  Proof using. intros L. unfold empty_bin, q2max_allowed, q2min_allowed. fold (thr d) (top d). rewrite (Rmin_comm (top d)), (Rmax_comm (thr d)). destruct (Rle_dec _ _); [reflexivity | lra]. Qed.
  Lemma ratio_bin : linear n -> linear e -> Rmax a (thr d) < Rmin b (top d) -> BVll_int_ratio d num den a b = n I I' / e I I'.
  Proof using W En Ee.
    intros Ln Le L. pose proof (empty_false L) as E. unfold BVll_int_ratio. rewrite E, ratio0_div.
    rewrite (bin_over d W a b num (linear_ext _ _ En Ln) E L), (bin_over d W a b den (linear_ext _ _ Ee Le) E L), En, Ee. reflexivity.
  Qed.
  Lemma linear_one k : linear (fun J J' => S_experiment_num J J' k).
  Proof using. apply (linear_ext (fun J J' => (if signflip k then -1 else 1) * (J k + J' k))); [| apply linear_S]. intros J J'. unfold S_experiment_num, S_theory_num. destruct (signflip k); ring. Qed.
  Lemma pprime_bin : (forall J J' : jkey -> R, e J J' = 2 * sqrt ((J J2s + J' J2s) * - (J J2c + J' J2c))) -> linear n -> Rmax a (thr d) < Rmin b (top d) -> BVll_int_pprime d num a b = n I I' / e I I'.
  Proof using W En.
    intros Q Ln L. pose proof (empty_false L) as E. unfold BVll_int_pprime. rewrite E. cbv zeta. rewrite ratio0_div.
    assert (B : forall k, binned d (jfunc d (fun J Jb : angcoeffs => S_experiment_num J Jb k)) a b = S_experiment_num I I' k) by (intros k; exact (bin_over d W a b _ (linear_one k) E L)).
    rewrite (bin_over d W a b num (linear_ext _ _ En Ln) E L), !B, En, Q.
    unfold S_experiment_num, S_theory_num. cbn [signflip]. replace (- (I J2s + I' J2s) * (I J2c + I' J2c)) with ((I J2s + I' J2s) * - (I J2c + I' J2c)) by ring. reflexivity.
  Qed.
End Ratio.
(** entries of the tables *)
Inductive pub : string -> ((jkey -> R) -> (jkey -> R) -> R) -> ((jkey -> R) -> (jkey -> R) -> R) -> Prop :=
| pub_S (name : string) num (n : (jkey -> R) -> (jkey -> R) -> R) : entry name _observables = Some num -> (forall J J', num J J' = n J J') -> linear n -> pub name n total
| pub_P (name : string) num x (n e : (jkey -> R) -> (jkey -> R) -> R) : entry name _observables = None -> entry name _observables_p = Some num -> linear n -> linear e -> x <> 0 -> (forall J J', n J J' = x * num J J') -> (forall J J', e J J' = x * P_den J J') -> pub name n e
| pub_Q (name : string) num (n e : (jkey -> R) -> (jkey -> R) -> R) : entry name _observables = None -> entry name _observables_p = None -> entry name _observables_pprime = Some num -> (forall J J', num J J' = n J J') -> linear n -> (forall J J' : jkey -> R, e J J' = 2 * sqrt ((J J2s + J' J2s) * - (J J2c + J' J2c))) -> pub name n e.
Ltac eat := repeat match goal with |- context [(?a =? ?b)%string] => let v := eval vm_compute in (String.eqb a b) in change (a =? b)%string with v end.
Ltac look := cbn [entry _observables _observables_p _observables_pprime]; eat; cbv iota; reflexivity.
Ltac case_S := eapply pub_S; [look | intros; unfold S_experiment_num, A_experiment_num, FL_num, AFB_experiment_num, S_experiment_num, S_theory_num, A_theory_num; cbn [signflip]; field | first [apply linear_S | apply linear_A]].
Ltac case_P y := eapply pub_P with (x := y); [look | look | first [apply linear_S | apply linear_A | (eapply linear_ext; [| apply (linear_A J9 (-1))]; intros; cbv beta; ring)] | apply linear_S | lra | intros; unfold S_experiment_num, A_experiment_num, S_theory_num, A_theory_num; cbn [signflip]; field | intros; unfold P_den, S_theory_num; ring].
Ltac case_Q := eapply pub_Q; [look | look | look | intros; unfold S_experiment_num, S_theory_num; cbn [signflip]; ring | apply linear_S | intros; reflexivity].
Ltac step name := lazymatch goal with |- context [string_dec name ?n] => destruct (string_dec name n) as [-> | ?]; cbv iota; [intros [= <- <-] |] end.
Lemma published_pub (name : string) n e : published name = Some (n, e) -> pub name n e.
Proof.
  unfold published. cbv zeta.
  do 16 (step name; [case_S |]).
  step name; [case_P 2 |]. step name; [case_P 8 |]. step name; [case_P 4 |]. step name; [case_P 2 |].
  do 4 (step name; [case_Q |]). discriminate.
Qed.
Lemma entry_names {A : Type} (name : string) (l : list (string * A)) : entry name l <> None -> In name (map fst l).
Proof.
  induction l as [| (m & x) l IH]; cbn [entry map fst]; [congruence |]. destruct (m =? name)%string eqn:E; [apply String.eqb_eq in E; left; exact E |]. intros H. right. now apply IH.
Qed.
Lemma registered (d : vll) (name : string) (q2 : R) : bvll_diff d name q2 <> None -> name = "ACP"%string \/ published name <> None.
Proof.
  intros H. assert (K : In name (map fst _observables ++ map fst _observables_p ++ map fst _observables_pprime)).
  { unfold bvll_diff in H. rewrite !in_app_iff. destruct (entry name _observables) eqn:E; [left; apply entry_names; congruence |].
    destruct (entry name _observables_p) eqn:F; [right; left; apply entry_names; congruence |].
    destruct (entry name _observables_pprime) eqn:G; [right; right; apply entry_names; congruence | cbn in H; congruence]. }
  cbn [map fst app _observables _observables_p _observables_pprime In] in K.
  repeat (destruct K as [<- | K]; [first [left; reflexivity | right; unfold published; cbv zeta; cbn [string_dec]; discriminate] |]). destruct K.
Qed.
Section Values.
  Variable d : vll.
  Hypothesis W : vll_ok d.
  Lemma pub_at name n e q2 : pub name n e -> thr d <= q2 <= top d -> e (Jv d q2) (Jv' d q2) <> 0 -> bvll_diff d name q2 = Some (n (Jv d q2) (Jv' d q2) / e (Jv d q2) (Jv' d q2)).
  Proof using.
    intros P L N. unfold bvll_diff. destruct P as [name num n E1 En _ | name num x n e E1 E2 _ _ x0 En Ee | name num n e E1 E2 E3 En _ Q]; rewrite E1, ?E2, ?E3; cbn [option_map]; f_equal.
    - apply ratio_at; [exact En | intros; rewrite total_is; unfold SA_den, dGdq2_ave; field | exact L].
    - rewrite (ratio_at d num P_den num P_den) by (try exact L; reflexivity). rewrite Ee, En in *. field. split; [| exact x0]. intros z. apply N. rewrite z. ring.
    - apply pprime_at; assumption.
  Qed.
  Lemma pub_bin name n e a b : pub name n e -> Rmax a (thr d) < Rmin b (top d) -> let I := over (Jv d) (Rmax a (thr d)) (Rmin b (top d)) in let I' := over (Jv' d) (Rmax a (thr d)) (Rmin b (top d)) in
    e I I' <> 0 -> bvll_bin d name a b = Some (n I I' / e I I').
  Proof using W.
    intros P L I I' N. unfold bvll_bin. destruct P as [name num n E1 En Ln | name num x n e E1 E2 Ln Le x0 En Ee | name num n e E1 E2 E3 En Ln Q]; rewrite E1, ?E2, ?E3; cbn [option_map]; f_equal.
    - apply ratio_bin; [exact W | exact En | intros; rewrite total_is; unfold SA_den, dGdq2_ave; field | exact Ln | apply linear_total | exact L].
    - assert (xi : forall f g : (jkey -> R) -> (jkey -> R) -> R, linear g -> (forall J J', g J J' = x * f J J') -> linear f).
      { intros f g (c & c' & G) H. exists (fun k => c k / x), (fun k => c' k / x). intros J J'. apply (Rmult_eq_reg_l x); [| exact x0]. rewrite <- H, G. unfold lin. field. exact x0. }
      rewrite (ratio_bin d W num P_den num P_den (fun _ _ => eq_refl) (fun _ _ => eq_refl) a b (xi _ n Ln En) (xi _ e Le Ee) L).
      unfold I, I' in *. rewrite Ee, En in *. field. split; [| exact x0]. intros z. apply N. rewrite z. ring.
    - apply pprime_bin; assumption.
  Qed.
  (** numerators that vanish give zero, whatever the denominator *)
  Lemma diff_out name q2 x : ~ (thr d <= q2 <= top d) -> bvll_diff d name q2 = Some x -> x = 0.
  Proof using.
    intros O. apply out_allowed in O. unfold bvll_diff, BVll_ratio, BVll_pprime. rewrite O. cbn [negb].
    destruct (entry name _observables); [now intros [= <-] |]. destruct (entry name _observables_p); [now intros [= <-] |]. destruct (entry name _observables_pprime); [now intros [= <-] | discriminate].
  Qed.
  Lemma bin_out name a b x : Rmin b (top d) <= Rmax a (thr d) -> bvll_bin d name a b = Some x -> x = 0.
  Proof using.
    intros O. pose proof (empty_true d a b O) as E. unfold bvll_bin, BVll_int_ratio, BVll_int_pprime. rewrite E.
    destruct (entry name _observables); [now intros [= <-] |]. destruct (entry name _observables_p); [now intros [= <-] |]. destruct (entry name _observables_pprime); [now intros [= <-] | discriminate].
  Qed.
End Values.
