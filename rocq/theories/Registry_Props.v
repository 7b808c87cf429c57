(** * Properties C01, C02, C58: named registries *)
From Verif Require Import Base Registry_Model Registry_Spec Registry_Proofs.
From Coq Require Import Sorting.Sorted.

(** C01: for every history of operations on the classes of flavio, a lookup returns the most
    recently created object of that name that was not deleted or cleared since, and raises
    KeyError otherwise (AttributeError if the class has never been used at all). *)
Theorem C01_lookup_is_latest_created :
  forall (Obj : Type) (ops : list (@op Obj)) c n,
    Forall (fun o => class_of o <> 0) ops ->
    get_instance flat_mro c n (run flat_mro ops init) =
      match latest (rev (events_of c ops)) n with
      | Some o => Ok o
      | None => if touched (rev (events_of c ops)) then Err KeyError else Err AttributeError
      end.
Proof. exact @get_after_history. Qed.
Print Assumptions C01_lookup_is_latest_created.

(** C01: the registry lists each present name once, ordered by when it became present. *)
Theorem C01_iteration_order_is_birth_order :
  forall (Obj : Type) (ops : list (@op Obj)) c r,
    Forall (fun o => class_of o <> 0) ops ->
    instances flat_mro (run flat_mro ops init) c = Some r ->
    NoDup (od_keys r) /\
    (forall n, In n (od_keys r) <-> birth (rev (events_of c ops)) n <> None) /\
    StronglySorted (fun a b => exists i j, birth (rev (events_of c ops)) a = Some i /\
        birth (rev (events_of c ops)) b = Some j /\ i < j) (od_keys r).
Proof. exact @order_after_history. Qed.
Print Assumptions C01_iteration_order_is_birth_order.

(** C01: an operation that raises changes nothing (any class hierarchy). *)
Theorem C01_failing_operation_changes_nothing :
  forall (Obj : Type) (mro : cls -> list cls) h (o : @op Obj) e,
    snd (step mro h o) = Err e -> fst (step mro h o) = h.
Proof. exact @failing_op_changes_nothing. Qed.
Print Assumptions C01_failing_operation_changes_nothing.

(** C01: deleting raises exactly when the name is absent. *)
Theorem C01_delete_raises_iff_absent :
  forall (Obj : Type) (ops : list (@op Obj)) c n,
    Forall (fun o => class_of o <> 0) ops ->
    (exists e, snd (step flat_mro (run flat_mro ops init) (Del c n)) = Err e) <->
    latest (rev (events_of c ops)) n = None.
Proof. exact @delete_fails_iff_absent. Qed.
Print Assumptions C01_delete_raises_iff_absent.

(** C01: [find] lists exactly the present names that match, each once, ordered by when they became present. *)
Theorem C01_find_lists_matching_names :
  forall (Obj : Type) (ops : list (@op Obj)) c (matches : string -> bool) names,
    Forall (fun o => class_of o <> 0) ops ->
    find flat_mro matches c (run flat_mro ops init) = Ok names ->
    NoDup names /\
    (forall n, In n names <-> (exists o, latest (rev (events_of c ops)) n = Some o) /\ matches n = true) /\
    StronglySorted (fun a b => exists i j, birth (rev (events_of c ops)) a = Some i /\
        birth (rev (events_of c ops)) b = Some j /\ i < j) names.
Proof.
  intros Obj ops c matches names Hf E. unfold find in E. destruct (instances flat_mro (run flat_mro ops init) c) as [r|] eqn:Er; [|discriminate].
  injection E as <-. destruct (C01_iteration_order_is_birth_order Obj ops c r Hf Er) as (H1 & H2 & H3). split; [apply NoDup_filter, H1|]. split.
  - intro n. rewrite filter_In, H2.
    assert (Hb : forall hist, birth hist n <> None <-> exists o : Obj, latest hist n = Some o).
    { induction hist as [|[m o|m|m|] hist IH]; cbn [birth latest].
      - split; [congruence|intros [o Ho]; discriminate].
      - destruct (eqb_spec n m) as [->|]; [|exact IH]. split; [eauto|]. destruct (birth hist m); discriminate.
      - exact IH.
      - destruct (eqb_spec n m); [|exact IH]. split; [congruence|intros [o Ho]; discriminate].
      - split; [congruence|intros [o Ho]; discriminate]. }
    rewrite Hb. reflexivity.
  - clear -H3. induction H3 as [|a l Hs IH Ha]; [constructor|]. cbn [filter]. destruct (matches a); [|exact IH]. constructor; [exact IH|].
    apply Forall_forall. intros b Hin. apply filter_In in Hin as [Hin _]. rewrite Forall_forall in Ha. auto.
Qed.
Print Assumptions C01_find_lists_matching_names.

(** C02: what is registered under one class is a function of the operations on that class
    alone: histories that agree on class [c] give the same registry for [c], whatever they do
    to other classes and in whatever interleaving. *)
Theorem C02_registries_do_not_interfere :
  forall (Obj : Type) (ops1 ops2 : list (@op Obj)) c,
    Forall (fun o => class_of o <> 0) ops1 -> Forall (fun o => class_of o <> 0) ops2 ->
    filter (fun o => eqb c (class_of o)) ops1 = filter (fun o => eqb c (class_of o)) ops2 ->
    instances flat_mro (run flat_mro ops1 init) c = instances flat_mro (run flat_mro ops2 init) c.
Proof. exact @non_interference. Qed.
Print Assumptions C02_registries_do_not_interfere.

(** C58 (subclasses of a registry class have their own registry) is false: with class 2
    derived from class 1, the same single operation on class 1 leaves different registries
    for class 1 depending on whether class 2 was used before or after. *)
Definition sub_mro (c : cls) : list cls := if Nat.eqb c 2 then [2; 1; 0] else [c; 0].
Theorem C58_subclass_registry_refuted :
  exists ops1 ops2 : list (@op nat),
    filter (fun o => eqb 1 (class_of o)) ops1 = filter (fun o => eqb 1 (class_of o)) ops2 /\
    instances sub_mro (run sub_mro ops1 init) 1 <> instances sub_mro (run sub_mro ops2 init) 1.
Proof.
  exists [Create 1 "a"%string 10; Create 2 "b"%string 20],
         [Create 2 "b"%string 20; Create 1 "a"%string 10].
  vm_compute. split; [reflexivity|discriminate].
Qed.
Print Assumptions C58_subclass_registry_refuted.

(** Non-vacuity: a history with re-creation, deletion and two classes. *)
Definition demo : list (@op nat) :=
  [Create 1 "x"%string 1; Create 2 "x"%string 9; Create 1 "y"%string 2; Create 1 "x"%string 3;
   Del 1 "y"%string; Create 1 "y"%string 4; Del 1 "zz"%string; Get 1 "x"%string].
Example demo_ok : Forall (fun o => class_of o <> 0) demo /\
  get_instance flat_mro 1 "x"%string (run flat_mro demo init) = Ok 3 /\
  instances flat_mro (run flat_mro demo init) 1 = Some [("x"%string, 3); ("y"%string, 4)] /\
  birth (rev (events_of 1 demo)) "x"%string = Some 0 /\ birth (rev (events_of 1 demo)) "y"%string = Some 4.
Proof. split; [repeat constructor; discriminate|vm_compute; auto]. Qed.
