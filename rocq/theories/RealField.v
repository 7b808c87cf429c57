(** * The real numbers of Coq's standard library as a field of mathcomp

    mathcomp's matrices need a field with decidable equality and a choice function; these come from the axioms of
    the standard library (real numbers, functional extensionality, indefinite description). *)
From Coq Require Import Reals Lra ClassicalEpsilon FunctionalExtensionality.
From mathcomp Require Import all_ssreflect all_algebra.
Set Implicit Arguments.
Unset Strict Implicit.
Unset Printing Implicit Defensive.
Delimit Scope R_scope with coqR.

Definition Reqb (x y : R) : bool := if Req_EM_T x y then true else false.
Lemma ReqP : Equality.axiom Reqb.
Proof. by move=> x y; rewrite /Reqb; case: Req_EM_T => h; constructor. Qed.
Canonical R_eqType := EqType R (EqMixin ReqP).

Definition Rpick (P : pred R) (n : nat) : option R :=
  let x := epsilon (inhabits 0%coqR) (fun y => P y) in if P x then Some x else None.
Fact Rpick_some P n x : Rpick P n = Some x -> P x.
Proof. by rewrite /Rpick; case: ifP => // h [<-]. Qed.
Fact Rpick_ex (P : pred R) : (exists x, P x) -> exists n, Rpick P n.
Proof. by move=> h; exists 0%N; rewrite /Rpick (epsilon_spec (inhabits 0%coqR) (fun y => P y) h). Qed.
Fact Rpick_ext (P Q : pred R) : P =1 Q -> Rpick P =1 Rpick Q.
Proof. by move=> h; have -> : P = Q by apply: functional_extensionality. Qed.
Definition R_choiceMixin : choiceMixin R := Choice.Mixin Rpick_some Rpick_ex Rpick_ext.
Canonical R_choiceType := ChoiceType R R_choiceMixin.

Fact RaddA : associative Rplus. Proof. by move=> x y z; rewrite Rplus_assoc. Qed.
Fact RaddC : commutative Rplus. Proof. exact: Rplus_comm. Qed.
Fact Radd0 : left_id 0%coqR Rplus. Proof. exact: Rplus_0_l. Qed.
Fact RaddN : left_inverse 0%coqR Ropp Rplus. Proof. exact: Rplus_opp_l. Qed.
Canonical R_zmodType := ZmodType R (ZmodMixin RaddA RaddC Radd0 RaddN).

Fact RmulA : associative Rmult. Proof. by move=> x y z; rewrite Rmult_assoc. Qed.
Fact RmulC : commutative Rmult. Proof. exact: Rmult_comm. Qed.
Fact Rmul1 : left_id 1%coqR Rmult. Proof. exact: Rmult_1_l. Qed.
Fact RmulD : left_distributive Rmult Rplus. Proof. by move=> x y z; rewrite Rmult_plus_distr_r. Qed.
Fact R1ne0 : 1%coqR != 0%coqR. Proof. by apply/eqP; exact: R1_neq_R0. Qed.
Canonical R_ringType := RingType R (ComRingMixin RmulA RmulC Rmul1 RmulD R1ne0).
Canonical R_comRingType := ComRingType R RmulC.

(** the inverse, with 0 for the inverse of 0 *)
Definition Rinvx (x : R) : R := if Reqb x 0 then 0%coqR else (/ x)%coqR.
Fact RmulVx (x : R) : x != 0%coqR -> (Rinvx x * x)%coqR = 1%coqR.
Proof. move=> h; rewrite /Rinvx; case: ReqP => e; first by rewrite e eqxx in h. by rewrite Rinv_l. Qed.
Fact Rinv0 : Rinvx 0 = 0%coqR. Proof. by rewrite /Rinvx; case: ReqP. Qed.
Definition R_fieldUnitMixin := FieldUnitMixin (R := [comRingType of R]) RmulVx Rinv0.
Canonical R_unitRingType := UnitRingType R R_fieldUnitMixin.
Canonical R_comUnitRingType := Eval hnf in [comUnitRingType of R].
Fact R_field_axiom : GRing.Field.mixin_of [unitRingType of R].
Proof. by move=> x. Qed.
Canonical R_idomainType := Eval hnf in IdomainType R (FieldIdomainMixin R_field_axiom).
Canonical R_fieldType := Eval hnf in FieldType R R_field_axiom.

(** translation to the operations of the standard library *)
Lemma RaddE (x y : R) : GRing.add x y = Rplus x y. Proof. by []. Qed.
Lemma RmulE (x y : R) : GRing.mul x y = Rmult x y. Proof. by []. Qed.
Lemma RoppE (x : R) : GRing.opp x = Ropp x. Proof. by []. Qed.
Lemma RinvE (x : R) : x <> 0%coqR -> GRing.inv x = Rinv x.
Proof. move=> h. rewrite /GRing.inv /= /Rinvx. by case: ReqP. Qed.
