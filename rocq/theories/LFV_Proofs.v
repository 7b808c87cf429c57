From Coq Require Import Reals List String Lra Lia.
From Coquelicot Require Import Coquelicot.
From Verif Require Import Base Basics_Model Decays_Model Leptonic_Model Leptonic_Spec Leptonic_Proofs LFV_Model LFV_Spec.
Import ListNotations.
Local Open Scope R_scope.

Lemma a2_is (z : C) : a2 z = fst z ^ 2 + snd z ^ 2.
Proof. unfold a2, Cmod. rewrite pow2_sqrt; [reflexivity|]. nra. Qed.
Lemma a2_pos (z : C) : 0 <= a2 z. Proof. rewrite a2_is. nra. Qed.
Lemma a2_0 : a2 (RtoC 0) = 0. Proof. rewrite a2_is. cbn. ring. Qed.
Lemma a2_conj (z : C) : a2 (Cconj z) = a2 z. Proof. rewrite !a2_is. destruct z. cbn. ring. Qed.
Lemma a2_scale (t : R) (z : C) : a2 (RtoC t * z)%C = t ^ 2 * a2 z. Proof. rewrite !a2_is. destruct z. cbn. ring. Qed.
Lemma cdiv_r (z : C) (r : R) : r <> 0 -> (z / RtoC r)%C = (RtoC (/ r) * z)%C.
Proof. intro H. unfold Cdiv. rewrite <- RtoC_inv by exact H. apply Cmult_comm. Qed.

(** completing the squares *)
Lemma tau3mu_squares (M m : R) (w : eop -> C) : BR_tau3mu M m w =
  2 * a2 (w EVLL + RtoC 4 * w E7)%C + a2 (w EVLR + RtoC 4 * w E7)%C + a2 (w EVRL + RtoC 4 * w E7p)%C + 2 * a2 (w EVRR + RtoC 4 * w E7p)%C
  + 1 / 8 * (a2 (w ESLL) + a2 (w ESRR)) + 32 * (a2 (w E7) + a2 (w E7p)) * (ln (M ^ 2 / m ^ 2) - 17 / 4).
Proof.
  unfold BR_tau3mu. set (L := ln _). rewrite !a2_is. destruct (w EVLL), (w EVLR), (w EVRL), (w EVRR), (w E7), (w E7p), (w ESLL), (w ESRR).
  cbn [fst snd Cplus Cmult Cconj RtoC]. field.
Qed.
Lemma taumuee_squares (M m : R) (w : eop -> C) : BR_taumuee M m w =
  a2 (w EVLL + RtoC 4 * w E7)%C + a2 (w EVLR + RtoC 4 * w E7)%C + a2 (w EVRL + RtoC 4 * w E7p)%C + a2 (w EVRR + RtoC 4 * w E7p)%C
  + 1 / 4 * (a2 (w ESLL) + a2 (w ESLR) + a2 (w ESRL) + a2 (w ESRR)) + 12 * (a2 (w ETLL) + a2 (w ETRR)) + 32 * (a2 (w E7) + a2 (w E7p)) * (ln (M ^ 2 / m ^ 2) - 4).
Proof.
  unfold BR_taumuee. set (L := ln _). rewrite !a2_is. destruct (w EVLL), (w EVLR), (w EVRL), (w EVRR), (w E7), (w E7p), (w ESLL), (w ESLR), (w ESRL), (w ESRR), (w ETLL), (w ETRR).
  cbn [fst snd Cplus Cmult Cconj RtoC]. field.
Qed.
Lemma tau3mu_pos (M m : R) (w : eop -> C) : 17 / 4 <= ln (M ^ 2 / m ^ 2) -> 0 <= BR_tau3mu M m w.
Proof.
  intro H. rewrite tau3mu_squares. set (L := ln _) in *.
  assert (0 <= (a2 (w E7) + a2 (w E7p)) * (L - 17 / 4)) by (apply Rmult_le_pos; [generalize (a2_pos (w E7)) (a2_pos (w E7p)); lra | lra]).
  generalize (a2_pos (w EVLL + RtoC 4 * w E7)%C) (a2_pos (w EVLR + RtoC 4 * w E7)%C) (a2_pos (w EVRL + RtoC 4 * w E7p)%C) (a2_pos (w EVRR + RtoC 4 * w E7p)%C) (a2_pos (w ESLL)) (a2_pos (w ESRR)). lra.
Qed.
Lemma taumuee_pos (M m : R) (w : eop -> C) : 4 <= ln (M ^ 2 / m ^ 2) -> 0 <= BR_taumuee M m w.
Proof.
  intro H. rewrite taumuee_squares. set (L := ln _) in *.
  assert (0 <= (a2 (w E7) + a2 (w E7p)) * (L - 4)) by (apply Rmult_le_pos; [generalize (a2_pos (w E7)) (a2_pos (w E7p)); lra | lra]).
  generalize (a2_pos (w EVLL + RtoC 4 * w E7)%C) (a2_pos (w EVLR + RtoC 4 * w E7)%C) (a2_pos (w EVRL + RtoC 4 * w E7p)%C) (a2_pos (w EVRR + RtoC 4 * w E7p)%C)
    (a2_pos (w ESLL)) (a2_pos (w ESRR)) (a2_pos (w ESLR)) (a2_pos (w ESRL)) (a2_pos (w ETLL)) (a2_pos (w ETRR)). lra.
Qed.
Lemma taumuemu_pos (w : eop -> C) : 0 <= BR_taumuemu w.
Proof. unfold BR_taumuemu. generalize (a2_pos (w EVLL)) (a2_pos (w EVLR)) (a2_pos (w EVRL)) (a2_pos (w EVRR)) (a2_pos (w ESLL)) (a2_pos (w ESRR)). lra. Qed.

(** behaviour under scaling, conjugation and exchange of chiralities *)
Definition swap (o : eop) : eop :=
  match o with E7 => E7p | E7p => E7 | EVLL => EVRR | EVRR => EVLL | EVLR => EVRL | EVRL => EVLR | ESLL => ESRR | ESRR => ESLL | ESLR => ESRL | ESRL => ESLR | ETLL => ETRR | ETRR => ETLL end.
Ltac three f := unfold f; rewrite !a2_is.
Lemma scale_3 (M m t : R) (w w' : eop -> C) : (forall o, w' o = (RtoC t * w o)%C) ->
  BR_tau3mu M m w' = t ^ 2 * BR_tau3mu M m w /\ BR_taumuee M m w' = t ^ 2 * BR_taumuee M m w /\ BR_taumuemu w' = t ^ 2 * BR_taumuemu w.
Proof.
  intro H. unfold BR_tau3mu, BR_taumuee, BR_taumuemu. rewrite !H, !a2_scale. set (L := ln _).
  refine (conj _ (conj _ _)); [| |ring]; destruct (w EVLL), (w EVLR), (w EVRL), (w EVRR), (w E7), (w E7p); cbn [fst snd Cplus Cmult Cconj RtoC]; ring.
Qed.
Lemma conj_3 (M m : R) (w w' : eop -> C) : (forall o, w' o = Cconj (w o)) ->
  BR_tau3mu M m w' = BR_tau3mu M m w /\ BR_taumuee M m w' = BR_taumuee M m w /\ BR_taumuemu w' = BR_taumuemu w.
Proof.
  intro H. unfold BR_tau3mu, BR_taumuee, BR_taumuemu. rewrite !H, !a2_conj. set (L := ln _).
  refine (conj _ (conj _ _)); [| |ring]; destruct (w EVLL), (w EVLR), (w EVRL), (w EVRR), (w E7), (w E7p); cbn [fst snd Cplus Cmult Cconj RtoC]; ring.
Qed.
Lemma swap_3 (M m : R) (w w' : eop -> C) : (forall o, w' o = w (swap o)) ->
  BR_tau3mu M m w' = BR_tau3mu M m w /\ BR_taumuee M m w' = BR_taumuee M m w /\ BR_taumuemu w' = BR_taumuemu w.
Proof.
  intro H. unfold BR_tau3mu, BR_taumuee, BR_taumuemu. rewrite !H. cbn [swap]. set (L := ln _).
  refine (conj _ (conj _ _)); [| |ring]; destruct (w EVLL), (w EVLR), (w EVRL), (w EVRR), (w E7), (w E7p); cbn [fst snd Cplus Cmult Cconj RtoC]; ring.
Qed.

Definition all_eops : list eop := [E7; E7p; EVLL; EVLR; EVRL; EVRR; ESLL; ESLR; ESRL; ESRR; ETLL; ETRR].
Ltac six l1 l2 l3 H := unfold decays3 in H; cbn [In] in H; repeat (destruct H as [H | H]; [injection H as <- <- <-|]); [..|contradiction].
Lemma eff_scale al m g t l0 l1 l2 l3 w : wc_eff al m g l0 l1 l2 l3 = Ok w -> exists w', wc_eff al m (scaled t g) l0 l1 l2 l3 = Ok w' /\ forall o, w' o = (RtoC t * w o)%C.
Proof.
  unfold wc_eff. destruct l0, l1, l2, l3; cbn [sector3 lep3_eqb bind]; intro H; try discriminate; injection H as <-; eexists; (split; [reflexivity|]);
    intro o; destruct o; unfold scaled; rewrite ?(cdiv_r _ 2), ?(cdiv_r _ 8) by lra; try (apply injective_projections; cbn [fst snd Cplus Cminus Copp Cmult Cconj RtoC]; ring).
Qed.
Lemma eff_cp al m g l0 l1 l2 l3 w : wc_eff al m g l0 l1 l2 l3 = Ok w -> exists w', wc_eff al m (cp g) l0 l1 l2 l3 = Ok w' /\ forall o, w' o = Cconj (w o).
Proof.
  unfold wc_eff. destruct l0, l1, l2, l3; cbn [sector3 lep3_eqb bind]; intro H; try discriminate; injection H as <-; eexists; (split; [reflexivity|]);
    intro o; destruct o; unfold cp; rewrite ?(cdiv_r _ 2), ?(cdiv_r _ 8) by lra; try (apply injective_projections; cbn [fst snd Cplus Cminus Copp Cmult Cconj RtoC]; ring).
Qed.
Lemma eff_none al m l0 l1 l2 l3 w : wc_eff al m none3 l0 l1 l2 l3 = Ok w -> forall o, w o = RtoC 0.
Proof.
  unfold wc_eff. destruct l0, l1, l2, l3; cbn [sector3 lep3_eqb bind]; intro H; try discriminate; injection H as <-;
    intro o; destruct o; unfold none3; rewrite ?(cdiv_r _ 2), ?(cdiv_r _ 8) by lra; try (apply injective_projections; cbn [fst snd Cplus Cminus Copp Cmult Cconj RtoC]; ring).
Qed.
Lemma mirror_at g g' s a b c : mirrored g g' -> In (s, a, b, c) mirror_all ->
  g' s a = (if c : bool then Cconj (g s b) else g s b) /\ g' s b = (if c : bool then Cconj (g s a) else g s a).
Proof. intros M I. unfold mirrored in M. rewrite Forall_forall in M. exact (M _ I). Qed.
Lemma conj2 (z : C) : Cconj (Cconj z) = z. Proof. destruct z. unfold Cconj. cbn [fst snd]. rewrite Ropp_involutive. reflexivity. Qed.
Lemma mirror_tab g g' : mirrored g g' -> Forall (fun r => let '(s, a, b, c) := r in
    g' s a = (if c : bool then Cconj (g s b) else g s b) /\ g' s b = (if c : bool then Cconj (g s a) else g s a)) mirror_table.
Proof. unfold mirrored, mirror_all. intro H. apply Forall_app in H. apply H. Qed.
Lemma eff_mirror al m g g' l0 l1 l2 l3 w : mirrored g g' -> wc_eff al m g l0 l1 l2 l3 = Ok w ->
  exists w', wc_eff al m g' l0 l1 l2 l3 = Ok w' /\ forall o, w' o = w (swap o).
Proof.
  intros Mi. apply mirror_tab in Mi. unfold mirror_table in Mi.
  repeat match type of Mi with Forall _ (_ :: _) => let A := fresh "A" in let B := fresh "B" in
     pose proof (Forall_inv Mi) as A; apply Forall_inv_tail in Mi; cbv beta iota in A; destruct A as [A B] end. clear Mi.
  unfold wc_eff. destruct l0, l1, l2, l3; cbn [sector3 lep3_eqb bind]; intro H; try discriminate; injection H as <-; eexists; (split; [reflexivity|]);
    intro o; destruct o; cbn [swap];
    repeat match goal with E : g' ?s ?a = _ |- context [g' ?s ?a] => rewrite E end; rewrite ?conj2; reflexivity.
Qed.
