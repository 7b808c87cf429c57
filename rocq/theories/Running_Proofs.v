From Coq Require Import Reals Lra.
From Verif Require Import Base BaseLemmas Running_Model Running_Spec.
Local Open Scope R_scope.

Ltac dest := repeat match goal with
  | |- context[if ?d then _ else _] => match type of d with sumbool _ _ => destruct d end
  | H : context[if ?d then _ else _] |- _ => match type of d with sumbool _ _ => destruct d end
  end; try lra.

Section P.
  Context {Y D : Type}.
  Variable evolve : D -> nat -> R -> R -> Y -> Y.

  Lemma up_steps t (y : Y) d a b n : ordered t -> a < b -> 0.1 <= b ->
    exists l, leads a b l /\ Forall (step_active t) l /\ changes l /\
      evolve_sm_body evolve t y d a b n = Ok (run_steps (evolve d) l y).
  Proof.
    intros (H1 & H2 & H3) Hab Hb. unfold evolve_sm_body. destruct (Rgt_dec a b); [lra|]. destruct (Rlt_dec a b); [|lra].
    destruct t as [mc mb mt]. cbn [t_mc t_mb t_mt] in *.
    assert (A3 : forall x y, x < y -> y <= mc -> step_active (mkT mc mb mt) (3%nat, x, y)).
    { intros. split; [lra|]. intros z. unfold Rmin, Rmax; dest. intros ?. left. cbn. split; [easy|lra]. }
    assert (A4 : forall x y, mc <= x -> x < y -> y <= mb -> step_active (mkT mc mb mt) (4%nat, x, y)).
    { intros. split; [lra|]. intros z. unfold Rmin, Rmax; dest. intros ?. right; left. cbn. split; [easy|lra]. }
    assert (A5 : forall x y, mb <= x -> x < y -> y <= mt -> step_active (mkT mc mb mt) (5%nat, x, y)).
    { intros. split; [lra|]. intros z. unfold Rmin, Rmax; dest. intros ?. right; right; left. cbn. split; [easy|lra]. }
    assert (A6 : forall x y, mt <= x -> x < y -> step_active (mkT mc mb mt) (6%nat, x, y)).
    { intros. split; [lra|]. intros z. unfold Rmin, Rmax; dest. intros ?. right; right; right. cbn. split; [easy|lra]. }
    assert (FF : forall (ls : list step) (r : result Y), leads a b ls -> Forall (step_active (mkT mc mb mt)) ls -> changes ls ->
       r = Ok (run_steps (evolve d) ls y) -> exists l, leads a b l /\ Forall (step_active (mkT mc mb mt)) l /\ changes l /\ r = Ok (run_steps (evolve d) l y)).
    { intros. eexists; eauto. }
    cbn [run_up threshold Nat.eqb Nat.ltb Nat.leb andb t_mc t_mb t_mt min_thr thr_or].
    unfold Rmin, reqb. dest;
    match goal with |- exists l, _ /\ _ /\ _ /\ Ok ?r = _ =>
      lazymatch r with
      | evolve _ ?n4 ?a4 ?b4 (evolve _ ?n3 ?a3 ?b3 (evolve _ ?n2 ?a2 ?b2 (evolve _ ?n1 ?a1 ?b1 y))) => apply (FF [(n1,a1,b1); (n2,a2,b2); (n3,a3,b3); (n4,a4,b4)])
      | evolve _ ?n3 ?a3 ?b3 (evolve _ ?n2 ?a2 ?b2 (evolve _ ?n1 ?a1 ?b1 y)) => apply (FF [(n1,a1,b1); (n2,a2,b2); (n3,a3,b3)])
      | evolve _ ?n2 ?a2 ?b2 (evolve _ ?n1 ?a1 ?b1 y) => apply (FF [(n1,a1,b1); (n2,a2,b2)])
      | evolve _ ?n1 ?a1 ?b1 y => apply (FF [(n1,a1,b1)])
      end end; try reflexivity;
    try match goal with
    | |- leads _ _ _ => cbn [leads]; repeat apply conj; try reflexivity; try lra; first [left; lra|right; lra]
    | |- changes _ => cbn [changes]; repeat apply conj; easy
    | |- Forall _ _ => repeat apply Forall_cons; try apply Forall_nil; first [apply A3; lra|apply A4; lra|apply A5; lra|apply A6; lra]
    end.
  Qed.
  Lemma down_steps t (y : Y) d a b : ordered t -> b < a -> 0.1 <= b ->
    exists l, leads a b l /\ Forall (step_active t) l /\ changes l /\
      evolve_sm_body evolve t y d a b None = Ok (run_steps (evolve d) l y).
  Proof.
    intros (H1 & H2 & H3) Hab Hb. unfold evolve_sm_body. destruct (Rgt_dec a b); [|lra].
    destruct t as [mc mb mt]. cbn [t_mc t_mb t_mt] in *.
    assert (A3 : forall x y, x < y -> y <= mc -> step_active (mkT mc mb mt) (3%nat, y, x)).
    { intros. split; [lra|]. intros z. unfold Rmin, Rmax; dest. intros ?. left. cbn. split; [easy|lra]. }
    assert (A4 : forall x y, mc <= x -> x < y -> y <= mb -> step_active (mkT mc mb mt) (4%nat, y, x)).
    { intros. split; [lra|]. intros z. unfold Rmin, Rmax; dest. intros ?. right; left. cbn. split; [easy|lra]. }
    assert (A5 : forall x y, mb <= x -> x < y -> y <= mt -> step_active (mkT mc mb mt) (5%nat, y, x)).
    { intros. split; [lra|]. intros z. unfold Rmin, Rmax; dest. intros ?. right; right; left. cbn. split; [easy|lra]. }
    assert (A6 : forall x y, mt <= x -> x < y -> step_active (mkT mc mb mt) (6%nat, y, x)).
    { intros. split; [lra|]. intros z. unfold Rmin, Rmax; dest. intros ?. right; right; right. cbn. split; [easy|lra]. }
    assert (FF : forall (ls : list step) (r : result Y), leads a b ls -> Forall (step_active (mkT mc mb mt)) ls -> changes ls ->
       r = Ok (run_steps (evolve d) ls y) -> exists l, leads a b l /\ Forall (step_active (mkT mc mb mt)) l /\ changes l /\ r = Ok (run_steps (evolve d) l y)).
    { intros. eexists; eauto. }
    cbn [run_down threshold Nat.eqb Nat.ltb Nat.leb andb t_mc t_mb t_mt max_thr thr_or].
    unfold Rmax, reqb. dest;
    match goal with |- exists l, _ /\ _ /\ _ /\ Ok ?r = _ =>
      lazymatch r with
      | evolve _ ?n4 ?a4 ?b4 (evolve _ ?n3 ?a3 ?b3 (evolve _ ?n2 ?a2 ?b2 (evolve _ ?n1 ?a1 ?b1 y))) => apply (FF [(n1,a1,b1); (n2,a2,b2); (n3,a3,b3); (n4,a4,b4)])
      | evolve _ ?n3 ?a3 ?b3 (evolve _ ?n2 ?a2 ?b2 (evolve _ ?n1 ?a1 ?b1 y)) => apply (FF [(n1,a1,b1); (n2,a2,b2); (n3,a3,b3)])
      | evolve _ ?n2 ?a2 ?b2 (evolve _ ?n1 ?a1 ?b1 y) => apply (FF [(n1,a1,b1); (n2,a2,b2)])
      | evolve _ ?n1 ?a1 ?b1 y => apply (FF [(n1,a1,b1)])
      end end; try reflexivity;
    try match goal with
    | |- leads _ _ _ => cbn [leads]; repeat apply conj; try reflexivity; try lra; first [left; lra|right; lra]
    | |- changes _ => cbn [changes]; repeat apply conj; easy
    | |- Forall _ _ => repeat apply Forall_cons; try apply Forall_nil; first [apply A3; lra|apply A4; lra|apply A5; lra|apply A6; lra]
    end.
  Qed.
  (** nf_out is not looked at when running up; it is when running down *)
  Lemma up_ignores_nf_out t (y : Y) d a b n n' : a < b -> evolve_sm_body evolve t y d a b n = evolve_sm_body evolve t y d a b n'.
  Proof. intros H. unfold evolve_sm_body. destruct (Rgt_dec a b); [lra|]. reflexivity. Qed.
End P.

Lemma active_fun t x n m : ordered t -> active t n x -> active t m x -> n = m.
Proof. intros (H1 & H2 & H3). unfold active. intros A B. destruct A as [(? & A)|[(? & A)|[(? & A)|(? & A)]]], B as [(? & B)|[(? & B)|[(? & B)|(? & B)]]]; subst; try reflexivity; exfalso; lra. Qed.
Lemma active_ex t x : exists n, active t n x.
Proof.
  unfold active. destruct (Rlt_dec x (t_mc t)); [exists 3%nat; left; auto|].
  destruct (Rlt_dec x (t_mb t)); [exists 4%nat; right; left; split; [easy|lra]|].
  destruct (Rlt_dec x (t_mt t)); [exists 5%nat; right; right; left; split; [easy|lra]|].
  exists 6%nat; right; right; right; split; [easy|lra].
Qed.

Lemma leads_between l : forall a b, leads a b l -> forall n x y, In (n, x, y) l -> (a <= b -> a <= x <= b /\ a <= y <= b) /\ (b <= a -> b <= x <= a /\ b <= y <= a).
Proof.
  induction l as [|[[m u] v] l IH]; intros a b H n x y Hin; [destruct Hin|].
  destruct H as (-> & Hd & Hl). destruct Hin as [E|Hin].
  - injection E as -> -> ->. lra.
  - specialize (IH _ _ Hl _ _ _ Hin). lra.
Qed.
Lemma rmid a b : a < b -> a < (a + b) / 2 < b.
Proof. lra. Qed.

Lemma chain_unique t : ordered t -> forall l a b l',
  leads a b l -> Forall (step_active t) l -> changes l -> leads a b l' -> Forall (step_active t) l' -> changes l' -> l = l'.
Proof.
  intros Ho. induction l as [|[[n x] y] l IH]; intros a b l' L1 F1 C1 L2 F2 C2.
  - destruct l' as [|[[n x] y] l']; [easy|]. cbn in L1, L2. destruct L2 as (-> & L2 & _). lra.
  - destruct l' as [|[[m u] v] l']; [cbn in L1, L2; destruct L1 as (-> & L1 & _); lra|].
    destruct L1 as (-> & D1 & L1). destruct L2 as (-> & D2 & L2).
    apply Forall_cons_iff in F1. destruct F1 as [(N1 & A1) F1]. apply Forall_cons_iff in F2. destruct F2 as [(N2 & A2) F2].
    assert (E : n = m).
    { destruct D1 as [D1|D1], D2 as [D2|D2]; try lra.
      - apply (active_fun t ((a + Rmin y v) / 2)); [assumption|apply A1|apply A2]; unfold Rmin, Rmax; dest.
      - apply (active_fun t ((a + Rmax y v) / 2)); [assumption|apply A1|apply A2]; unfold Rmin, Rmax; dest. }
    subst m.
    assert (Eyv : y = v).
    { destruct (Rtotal_order y v) as [H|[H|H]]; [exfalso|assumption|exfalso].
      - destruct D1 as [D1|D1], D2 as [D2|D2]; try lra.
        + (* up, y < v: the first list goes on within the step of the second *)
          destruct l as [|[[k p] q] l]; [cbn in L1; lra|]. destruct L1 as (-> & D1' & _). destruct C1 as [C1 _].
          apply Forall_cons_iff in F1. destruct F1 as [(_ & A) _]. apply C1.
          destruct D1' as [D1'|D1']; [|lra].
          apply (active_fun t ((y + Rmin q v) / 2)); [assumption|apply A2|apply A]; unfold Rmin, Rmax; dest.
        + (* down, y < v *)
          destruct l' as [|[[k p] q] l']; [cbn in L2; lra|]. destruct L2 as (-> & D2' & _). destruct C2 as [C2 _].
          apply Forall_cons_iff in F2. destruct F2 as [(_ & A) _]. apply C2.
          destruct D2' as [D2'|D2']; [lra|].
          apply (active_fun t ((v + Rmax q y) / 2)); [assumption|apply A1|apply A]; unfold Rmin, Rmax; dest.
      - destruct D1 as [D1|D1], D2 as [D2|D2]; try lra.
        + destruct l' as [|[[k p] q] l']; [cbn in L2; lra|]. destruct L2 as (-> & D2' & _). destruct C2 as [C2 _].
          apply Forall_cons_iff in F2. destruct F2 as [(_ & A) _]. apply C2.
          destruct D2' as [D2'|D2']; [|lra].
          apply (active_fun t ((v + Rmin q y) / 2)); [assumption|apply A1|apply A]; unfold Rmin, Rmax; dest.
        + destruct l as [|[[k p] q] l]; [cbn in L1; lra|]. destruct L1 as (-> & D1' & _). destruct C1 as [C1 _].
          apply Forall_cons_iff in F1. destruct F1 as [(_ & A) _]. apply C1.
          destruct D1' as [D1'|D1']; [lra|].
          apply (active_fun t ((y + Rmax q v) / 2)); [assumption|apply A2|apply A]; unfold Rmin, Rmax; dest. }
    subst v. f_equal. apply (IH y b); try assumption.
    + destruct l as [|[[? ?] ?] ?]; [exact I|apply C1].
    + destruct l' as [|[[? ?] ?] ?]; [exact I|apply C2].
Qed.
