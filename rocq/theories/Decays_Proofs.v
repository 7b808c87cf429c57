(** * Proofs for the decay observables: integrals of clipped functions, continuity of the angular coefficients *)
From Coq Require Import Reals Lra.
From Coquelicot Require Import Coquelicot.
From Verif Require Import Base Basics_Model Basics_Proofs Angular_Model Decays_Model.
Local Open Scope R_scope.

(** ** Riemann integrals of real functions *)
Definition int (f : R -> R) (a b : R) : Prop := ex_RInt f a b.
Lemma int_ext (f g : R -> R) (a b : R) : a <= b -> (forall x, a < x < b -> f x = g x) -> int f a b -> int g a b.
Proof. intros L E. apply ex_RInt_ext. intros x. rewrite Rmin_left, Rmax_right by exact L. apply E. Qed.
Lemma RI_ext (f g : R -> R) (a b : R) : a <= b -> (forall x, a < x < b -> f x = g x) -> RInt f a b = RInt g a b.
Proof. intros L E. apply RInt_ext. intros x. rewrite Rmin_left, Rmax_right by exact L. apply E. Qed.
Lemma RI_chasles (f : R -> R) (a b c : R) : int f a b -> int f b c -> RInt f a c = RInt f a b + RInt f b c.
Proof. intros I K. symmetry. exact (RInt_Chasles f a b c I K). Qed.
Lemma RI_scal (f : R -> R) (a b k : R) : int f a b -> RInt (fun x => k * f x) a b = k * RInt f a b.
Proof. intros I. exact (RInt_scal f a b k I). Qed.
Lemma RI_plus (f g : R -> R) (a b : R) : int f a b -> int g a b -> RInt (fun x => f x + g x) a b = RInt f a b + RInt g a b.
Proof. intros I K. exact (RInt_plus f g a b I K). Qed.
Lemma RI_minus (f g : R -> R) (a b : R) : int f a b -> int g a b -> RInt (fun x => f x - g x) a b = RInt f a b - RInt g a b.
Proof. intros I K. exact (RInt_minus f g a b I K). Qed.
Lemma RI_zero (f : R -> R) (a b : R) : a <= b -> (forall x, a < x < b -> f x = 0) -> int f a b /\ RInt f a b = 0.
Proof.
  intros L E. split.
  - apply (int_ext (fun _ => 0)); [exact L | intros; symmetry; now apply E | apply ex_RInt_const].
  - rewrite (RI_ext f (fun _ => 0)) by assumption. rewrite RInt_const. apply Rmult_0_r.
Qed.
Lemma int_scal (f : R -> R) (a b k : R) : int f a b -> int (fun x => k * f x) a b.
Proof. intros I. exact (ex_RInt_scal f a b k I). Qed.
Lemma int_plus (f g : R -> R) (a b : R) : int f a b -> int g a b -> int (fun x => f x + g x) a b.
Proof. intros I K. exact (ex_RInt_plus f g a b I K). Qed.
Lemma int_minus (f g : R -> R) (a b : R) : int f a b -> int g a b -> int (fun x => f x - g x) a b.
Proof. intros I K. exact (ex_RInt_minus f g a b I K). Qed.
Lemma int_chasles (f : R -> R) (a b c : R) : int f a b -> int f b c -> int f a c.
Proof. apply (ex_RInt_Chasles f a b c). Qed.
Lemma int_part (f : R -> R) (a b c e : R) : a <= c -> c <= e -> e <= b -> int f a b -> int f c e.
Proof.
  intros L1 L2 L3 I. apply (ex_RInt_Chasles_2 f a c e); [lra |]. apply (ex_RInt_Chasles_1 f a e b); [lra | exact I].
Qed.
Lemma int_cont (f : R -> R) (a b : R) : a <= b -> (forall x, a <= x <= b -> continuous f x) -> int f a b.
Proof. intros L C. apply (ex_RInt_continuous (V := R_CompleteNormedModule)). intros x. rewrite Rmin_left, Rmax_right by exact L. apply C. Qed.
Lemma RI_pos (f : R -> R) (a b : R) : a <= b -> int f a b -> (forall x, a < x < b -> 0 <= f x) -> 0 <= RInt f a b.
Proof. intros L I P. now apply RInt_ge_0. Qed.
Lemma RI_le (f g : R -> R) (a b : R) : a <= b -> int f a b -> int g a b -> (forall x, a < x < b -> f x <= g x) -> RInt f a b <= RInt g a b.
Proof. intros L I K P. now apply RInt_le. Qed.

(** *** functions set to zero outside an interval *)
Definition clip (lo hi : R) (f : R -> R) (x : R) : R := if Rlt_dec x lo then 0 else if Rlt_dec hi x then 0 else f x.
Definition from (lo a b : R) : R := Rmin b (Rmax a lo).
Definition upto (lo hi a b : R) : R := Rmax (from lo a b) (Rmin b hi).
Lemma from_upto (lo hi a b : R) : a <= b -> a <= from lo a b <= upto lo hi a b /\ upto lo hi a b <= b.
Proof.
  intros L. unfold upto, from. pose proof (Rmax_l a lo) as M. pose proof (Rmax_l (Rmin b (Rmax a lo)) (Rmin b hi)) as N.
  pose proof (Rmin_l b (Rmax a lo)) as P. pose proof (Rmin_l b hi) as Q. refine (conj (conj _ N) _); [now apply Rmin_glb | now apply Rmax_lub].
Qed.
Ltac mm := repeat match goal with
  | H : context [Rmin ?a ?b] |- _ => first [rewrite (Rmin_left a b) in H by lra | rewrite (Rmin_right a b) in H by lra
      | let e := fresh in destruct (Rle_dec a b) as [e | e]; [rewrite (Rmin_left a b) in * by lra | apply Rnot_le_lt in e; rewrite (Rmin_right a b) in * by lra]]
  | H : context [Rmax ?a ?b] |- _ => first [rewrite (Rmax_right a b) in H by lra | rewrite (Rmax_left a b) in H by lra
      | let e := fresh in destruct (Rle_dec a b) as [e | e]; [rewrite (Rmax_right a b) in * by lra | apply Rnot_le_lt in e; rewrite (Rmax_left a b) in * by lra]]
  | |- context [Rmin ?a ?b] => first [rewrite (Rmin_left a b) by lra | rewrite (Rmin_right a b) by lra
      | let e := fresh in destruct (Rle_dec a b) as [e | e]; [rewrite (Rmin_left a b) in * by lra | apply Rnot_le_lt in e; rewrite (Rmin_right a b) in * by lra]]
  | |- context [Rmax ?a ?b] => first [rewrite (Rmax_right a b) by lra | rewrite (Rmax_left a b) by lra
      | let e := fresh in destruct (Rle_dec a b) as [e | e]; [rewrite (Rmax_right a b) in * by lra | apply Rnot_le_lt in e; rewrite (Rmax_left a b) in * by lra]]
  end.
Lemma clip_int (lo hi a b : R) (f : R -> R) : a <= b -> int f (from lo a b) (upto lo hi a b) ->
  int (clip lo hi f) a b /\ RInt (clip lo hi f) a b = RInt f (from lo a b) (upto lo hi a b).
Proof.
  intros L I. destruct (from_upto lo hi a b L) as ((L1 & L2) & L3).
  destruct (RI_zero (clip lo hi f) a (from lo a b) L1) as (I1 & E1).
  { intros x X. unfold clip. destruct (Rlt_dec x lo) as [n | n]; [reflexivity | exfalso]. unfold from in X. mm; lra. }
  destruct (RI_zero (clip lo hi f) (upto lo hi a b) b L3) as (I3 & E3).
  { intros x X. unfold clip. destruct (Rlt_dec x lo) as [n | n]; [reflexivity |]. destruct (Rlt_dec hi x) as [m | m]; [reflexivity | exfalso]. unfold upto, from in X. mm; lra. }
  assert (E : forall x, from lo a b < x < upto lo hi a b -> f x = clip lo hi f x).
  { intros x X. unfold clip. destruct (Rlt_dec x lo) as [n | n]; [exfalso | destruct (Rlt_dec hi x) as [m | m]; [exfalso | reflexivity]]; unfold upto, from in X; mm; lra. }
  pose proof (int_ext _ _ _ _ L2 E I) as I2. split.
  - exact (int_chasles _ _ _ _ (int_chasles _ _ _ _ I1 I2) I3).
  - rewrite (RI_chasles _ _ (upto lo hi a b)); [| exact (int_chasles _ _ _ _ I1 I2) | exact I3].
    rewrite (RI_chasles _ _ (from lo a b)) by assumption. rewrite E1, E3, (RI_ext f (clip lo hi f)) by assumption. match goal with |- @eq _ ?a ?b => change (@eq R a b) end. ring.
Qed.
(** the overlap of the bin and the interval *)
Lemma overlap (lo hi a b : R) : a <= b -> from lo a b = upto lo hi a b \/ lo <= from lo a b /\ upto lo hi a b <= hi /\ from lo a b = Rmax a lo /\ upto lo hi a b = Rmin b hi.
Proof. intros L. destruct (from_upto lo hi a b L) as ((L1 & L2) & L3). destruct L2 as [L2 | L2]; [right | left; exact L2]. unfold upto, from in *. refine (conj _ (conj _ (conj _ _))); mm; lra. Qed.
Lemma clip_exists (lo hi a b : R) (f : R -> R) : a <= b -> (lo <= hi -> int f lo hi) -> int f (from lo a b) (upto lo hi a b).
Proof.
  intros L I. destruct (from_upto lo hi a b L) as ((L1 & L2) & L3). destruct (overlap lo hi a b L) as [O | (O1 & O2 & _)]; [rewrite O; apply ex_RInt_point |].
  apply (int_part f lo hi); try lra. apply I. lra.
Qed.
Lemma clip_integrable (lo hi a b : R) (f : R -> R) : a <= b -> (lo <= hi -> int f lo hi) -> int (clip lo hi f) a b.
Proof. intros L I. apply clip_int; [exact L | now apply clip_exists]. Qed.
(** the pieces outside contribute nothing *)
Lemma clip_cover (lo hi a b : R) (f : R -> R) : a <= lo -> lo <= hi -> hi <= b -> int f lo hi -> RInt (clip lo hi f) a b = RInt f lo hi.
Proof.
  intros L1 L2 L3 I. assert (L : a <= b) by lra. destruct (clip_int lo hi a b f L) as (_ & E); [now apply clip_exists |]. rewrite E.
  unfold upto, from. now rewrite (Rmax_right a lo), (Rmin_right b lo), (Rmin_right b hi), (Rmax_right lo hi) by lra.
Qed.
Lemma clip_whole (lo hi : R) (f : R -> R) : lo <= hi -> int f lo hi -> RInt (clip lo hi f) lo hi = RInt f lo hi.
Proof. intros L I. apply clip_cover; try exact I; lra. Qed.

(** ** Continuity *)
Definition rc (f : R -> R) (x : R) : Prop := continuous f x.
Definition cc (f : R -> C) (x : R) : Prop := rc (fun t => fst (f t)) x /\ rc (fun t => snd (f t)) x.
Section Rc.
  Variable x : R.
  Lemma rc_const (c : R) : rc (fun _ => c) x. Proof. apply continuous_const. Qed.
  Lemma rc_id : rc (fun t => t) x. Proof. apply continuous_id. Qed.
  Lemma rc_plus (f g : R -> R) : rc f x -> rc g x -> rc (fun t => f t + g t) x. Proof. exact (continuous_plus f g x). Qed.
  Lemma rc_minus (f g : R -> R) : rc f x -> rc g x -> rc (fun t => f t - g t) x. Proof. exact (continuous_minus f g x). Qed.
  Lemma rc_opp (f : R -> R) : rc f x -> rc (fun t => - f t) x. Proof. exact (continuous_opp f x). Qed.
  Lemma rc_mult (f g : R -> R) : rc f x -> rc g x -> rc (fun t => f t * g t) x. Proof. exact (continuous_mult f g x). Qed.
  Lemma rc_inv (f : R -> R) : rc f x -> f x <> 0 -> rc (fun t => / f t) x. Proof. exact (continuous_Rinv_comp f x). Qed.
  Lemma rc_div (f g : R -> R) : rc f x -> rc g x -> g x <> 0 -> rc (fun t => f t / g t) x.
  Proof. intros F G N. unfold Rdiv. apply rc_mult; [exact F | now apply rc_inv]. Qed.
  Lemma rc_sqrt (f : R -> R) : rc f x -> rc (fun t => sqrt (f t)) x. Proof. exact (continuous_sqrt_comp f x). Qed.
  Lemma rc_pow (f : R -> R) (n : nat) : rc f x -> rc (fun t => f t ^ n) x.
  Proof. intros F. induction n as [| n IH]; cbn [pow]; [apply rc_const | now apply rc_mult]. Qed.
  Lemma rc_ext (f g : R -> R) : (forall t, f t = g t) -> rc f x -> rc g x.
  Proof. intros E. apply continuous_ext. exact E. Qed.
  Lemma rc_lambda (a b c : R -> R) : rc a x -> rc b x -> rc c x -> rc (fun t => lambda_K (a t) (b t) (c t)) x.
  Proof.
    intros A B D. apply (rc_ext (fun t => ((a t ^ 2 + b t ^ 2 + c t ^ 2 - 2 * (a t * b t + b t * c t + a t * c t)) + Rabs (a t ^ 2 + b t ^ 2 + c t ^ 2 - 2 * (a t * b t + b t * c t + a t * c t))) / 2)).
    - intros t. unfold lambda_K. cbv zeta. destruct (Rlt_dec _ 0) as [n | n]; [rewrite Rabs_left by exact n; field | rewrite Rabs_right by lra; field].
    - assert (P : rc (fun t => a t ^ 2 + b t ^ 2 + c t ^ 2 - 2 * (a t * b t + b t * c t + a t * c t)) x).
      { apply rc_minus; [repeat apply rc_plus; now apply rc_pow |]. apply rc_mult; [apply rc_const |]. repeat apply rc_plus; now apply rc_mult. }
      apply rc_div; [| apply rc_const | lra]. apply rc_plus; [exact P |]. apply (continuous_comp _ Rabs); [exact P | apply continuous_Rabs].
  Qed.
  Lemma rc_fst (f : R -> C) : cc f x -> rc (fun t => fst (f t)) x. Proof. intros H. apply H. Qed.
  Lemma rc_snd (f : R -> C) : cc f x -> rc (fun t => snd (f t)) x. Proof. intros H. apply H. Qed.
  Lemma rc_cmod (f : R -> C) : cc f x -> rc (fun t => Cmod (f t)) x.
  Proof. intros (A & B). unfold Cmod. apply rc_sqrt, rc_plus; now apply rc_pow. Qed.
  Lemma cc_const (c : C) : cc (fun _ => c) x. Proof. split; apply rc_const. Qed.
  Lemma cc_real (f : R -> R) : rc f x -> cc (fun t => RtoC (f t)) x. Proof. intros F. split; [exact F | apply rc_const]. Qed.
  Lemma cc_plus (f g : R -> C) : cc f x -> cc g x -> cc (fun t => f t + g t)%C x.
  Proof. intros (A & B) (A' & B'). split; cbn [fst snd Cplus]; now apply rc_plus. Qed.
  Lemma cc_opp (f : R -> C) : cc f x -> cc (fun t => - f t)%C x.
  Proof. intros (A & B). split; cbn [fst snd Copp]; now apply rc_opp. Qed.
  Lemma cc_minus (f g : R -> C) : cc f x -> cc g x -> cc (fun t => f t - g t)%C x.
  Proof. intros F G. unfold Cminus. apply cc_plus; [exact F | now apply cc_opp]. Qed.
  Lemma cc_mult (f g : R -> C) : cc f x -> cc g x -> cc (fun t => f t * g t)%C x.
  Proof. intros (A & B) (A' & B'). split; cbn [fst snd Cmult]; [apply rc_minus | apply rc_plus]; now apply rc_mult. Qed.
  Lemma cc_conj (f : R -> C) : cc f x -> cc (fun t => Cconj (f t)) x.
  Proof. intros (A & B). split; cbn [fst snd Cconj]; [exact A | now apply rc_opp]. Qed.
  Lemma cc_div (f : R -> C) (g : R -> R) : cc f x -> rc g x -> g x <> 0 -> cc (fun t => f t / RtoC (g t))%C x.
  Proof.
    intros F G N. unfold Cdiv. apply cc_mult; [exact F |]. unfold Cinv, RtoC. split; cbn [fst snd].
    - apply rc_div; [exact G | apply rc_plus; apply rc_pow; [exact G | apply rc_const] |]. intros E. apply N. nra.
    - apply rc_div; [apply rc_const | apply rc_plus; apply rc_pow; [exact G | apply rc_const] |]. intros E. apply N. nra.
  Qed.
End Rc.
Ltac cstep := lazymatch goal with
  | |- rc (fun _ => ?c) _ => apply rc_const
  | |- rc (fun t => t) _ => apply rc_id
  | |- rc (fun t => @?f t + @?g t) ?x => apply (rc_plus x f g); cbv beta
  | |- rc (fun t => @?f t - @?g t) ?x => apply (rc_minus x f g); cbv beta
  | |- rc (fun t => - @?f t) ?x => apply (rc_opp x f); cbv beta
  | |- rc (fun t => @?f t * @?g t) ?x => apply (rc_mult x f g); cbv beta
  | |- rc (fun t => @?f t / @?g t) ?x => apply (rc_div x f g); cbv beta
  | |- rc (fun t => @?f t ^ ?n) ?x => apply (rc_pow x f n); cbv beta
  | |- rc (fun t => sqrt (@?f t)) ?x => apply (rc_sqrt x f); cbv beta
  | |- rc (fun t => lambda_K (@?f t) (@?g t) (@?h t)) ?x => apply (rc_lambda x f g h); cbv beta
  | |- rc (fun t => Cmod (@?f t)) ?x => apply (rc_cmod x f); cbv beta
  | |- rc (fun t => fst (@?f t)) ?x => apply (rc_fst x f); cbv beta
  | |- rc (fun t => snd (@?f t)) ?x => apply (rc_snd x f); cbv beta
  | |- cc (fun _ => ?c) _ => apply cc_const
  | |- cc (fun t => RtoC (@?f t)) ?x => apply (cc_real x f); cbv beta
  | |- cc (fun t => Cplus (@?f t) (@?g t)) ?x => apply (cc_plus x f g); cbv beta
  | |- cc (fun t => Cminus (@?f t) (@?g t)) ?x => apply (cc_minus x f g); cbv beta
  | |- cc (fun t => Copp (@?f t)) ?x => apply (cc_opp x f); cbv beta
  | |- cc (fun t => Cmult (@?f t) (@?g t)) ?x => apply (cc_mult x f g); cbv beta
  | |- cc (fun t => Cdiv (@?f t) (RtoC (@?g t))) ?x => apply (cc_div x f g); cbv beta
  | |- cc (fun t => Cconj (@?f t)) ?x => apply (cc_conj x f); cbv beta
  end.

Definition amps_cont (H : R -> amps) (x : R) : Prop :=
  (forall l, cc (fun t => aV (H t) l) x) /\ (forall l, cc (fun t => aA (H t) l) x) /\ cc (fun t => aP (H t)) x /\ cc (fun t => aS (H t)) x /\
  (forall l, cc (fun t => aT (H t) l) x) /\ (forall l, cc (fun t => aTt (H t) l) x).
Definition pamps_cont (h : R -> pamps) (x : R) : Prop :=
  cc (fun t => pV (h t)) x /\ cc (fun t => pA (h t)) x /\ cc (fun t => pS (h t)) x /\ cc (fun t => pP (h t)) x /\ cc (fun t => pT (h t)) x /\ cc (fun t => pTt (h t)) x.
