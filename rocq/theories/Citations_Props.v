(** * Properties C30, C31: the citation manager *)
From Verif Require Import Base Citations_Model Citations_Spec Citations_Proofs.

(** C30: creating an object never fails, and after any history of calls on it the citation set
    is exactly the one described by [cited_after]; registering an unknown key raises and a
    known one does not; registering twice is registering once. *)
Theorem C30_citation_set :
  forall (known defaults : list string), exists c0,
    init known defaults = (c0, true) /\
    forall h, let c := history c0 h in
      (forall k, In k (cset c) <-> cited_after known defaults h k) /\
      (forall k, register c k = None <-> ~ In k (known ++ defaults)) /\
      (forall k c1 c2, register c k = Some c1 -> register c1 k = Some c2 ->
         forall x, In x (cset c2) <-> In x (cset c1)) /\
      snd (reset c) = true.
Proof.
  intros known defaults. destruct (init_ok known defaults) as [c0 (E & W & S)]. exists c0.
  split; [exact E|]. intros h c.
  assert (Wc : wf (known ++ defaults) defaults c) by (apply history_wf; exact W).
  split; [now apply history_spec|]. split.
  { intro k. split.
    - intros H Hin. destruct (register_ok _ _ c k Wc Hin) as [c' (E' & _)]. congruence.
    - apply register_err with (D := defaults). exact Wc. }
  split.
  { intros k c1 c2 H1 H2 x.
    destruct (in_dec string_dec k (known ++ defaults)) as [Hin|Hin].
    - destruct (register_ok _ _ c k Wc Hin) as [c1' (E1 & W1 & S1)].
      rewrite E1 in H1. injection H1 as <-.
      destruct (register_ok _ _ c1' k W1 Hin) as [c2' (E2 & W2 & S2)].
      rewrite E2 in H2. injection H2 as <-. rewrite S2, S1. tauto.
    - rewrite (register_err _ _ c k Wc Hin) in H1. discriminate. }
  destruct (reset_ok _ _ c Wc) as [c' (E' & _)]. now rewrite E'.
Qed.
Print Assumptions C30_citation_set.

(** C31: whatever the body of a scope does (register, clear, reset, branch, raise, catch, nest
    further scopes), after it the same citations object as before is current, no object that
    existed before has changed, the exception of the body (if any) goes on, and the collected
    object has exactly the keys the body registered, starting from none. *)
Theorem C31_scope :
  forall (known : list string) (body : prog) (w : world),
    let w' := fst (run known (Collect body) w) in
    current w' = current w /\
    (forall i, i < length (heap w) -> nth_error (heap w') i = nth_error (heap w) i) /\
    snd (run known (Collect body) w) = snd (told known known [] body []) /\
    exists c, nth_error (heap w') (length (heap w)) = Some c /\
      forall k, In k (cset c) <-> In k (fst (told known known [] body [])).
Proof. exact collect_told. Qed.
Print Assumptions C31_scope.

(** C31, [Observable.theory_citations]: the result depends on the prediction only, not on what
    was cited before; every key is known; the global set is as before. *)
Theorem C31_theory_citations :
  forall (known : list string) (prediction : prog) (w : world),
    match told known known [] prediction [] with
    | (s, None) => exists cites, snd (theory_citations known prediction w) = Ok cites /\
                     (forall k, In k cites <-> In k s) /\ incl cites known
    | (_, Some e) => snd (theory_citations known prediction w) = Err e
    end /\
    let w' := fst (theory_citations known prediction w) in
    current w' = current w /\
    (forall i, i < length (heap w) -> nth_error (heap w') i = nth_error (heap w) i).
Proof.
  intros known p w. unfold theory_citations.
  pose proof (collect_told known p w) as H. cbv zeta in H.
  pose proof (told_allowed known known [] p [] (fun x H => match H with end) (fun x H => match H with end)) as Ha.
  destruct (run known (Collect p) w) as [w' o]. cbn [fst snd] in *.
  destruct H as (H1 & H2 & H3 & [c [H4 H5]]).
  destruct (told known known [] p []) as [s o']. cbn [fst snd] in *. subst o'.
  split; [|split; assumption].
  destruct o as [e|]; [reflexivity|]. rewrite H4. exists (cset c). split; [reflexivity|].
  split; [exact H5|]. intros k Hk. apply Ha, H5, Hk.
Qed.
Print Assumptions C31_theory_citations.

(** C31, programs without an own scope: outside any scope, a whole program acts on the current
    object as on a plain set, and every other object is left alone. *)
Theorem C31_program :
  forall (known defaults : list string) (p : prog) (others : list citations) c0,
    init known defaults = (c0, true) ->
    exists c, let w' := fst (run known p (mkW (c0 :: others) 0)) in
      current w' = 0 /\ nth_error (heap w') 0 = Some c /\
      snd (run known p (mkW (c0 :: others) 0)) = snd (told known (known ++ defaults) defaults p defaults) /\
      (forall k, In k (cset c) <-> In k (fst (told known (known ++ defaults) defaults p defaults))) /\
      (forall i o, nth_error others i = Some o -> nth_error (heap w') (S i) = Some o).
Proof.
  intros known defaults p others c0 E. destruct (init_ok known defaults) as [c0' (E' & W & S)].
  rewrite E in E'. injection E' as <-.
  destruct (run_told known p _ _ (mkW (c0 :: others) 0) c0 defaults eq_refl W S) as [c (C & L & P & N & Wc & O & Sc)].
  exists c. cbv zeta. repeat split; auto; try apply Sc.
  intros i o Hi. rewrite P; [exact Hi| |discriminate]. cbn [heap length].
  assert (i < length others) by (apply nth_error_Some; congruence). lia.
Qed.
Print Assumptions C31_program.

(** Non-vacuity: a nested scope with an exception caught outside of the inner scope. *)
Example citations_example :
  let known := ["B:2"; "A:1"]%string in
  let body := Seq (Reg "A:1") (Seq (Try (Collect (Seq (Reg "B:2") (Raise ValueError))) Skip)
                 (Try (Reg "Straub:2018kue") Skip)) in
  let w := mkW [fst (init known ["Straub:2018kue"%string])] 0 in
  snd (theory_citations known body w) = Ok ["A:1"%string] /\
  told known known [] body [] = (["A:1"%string], None) /\
  map cset (heap (fst (theory_citations known body w))) =
    [["Straub:2018kue"%string]; ["A:1"%string]; ["B:2"%string]].
Proof. vm_compute. auto. Qed.
Example cited_after_example :
  cited_after ["A:1"%string] ["S"%string] [CClear; CRegister "A:1"] "A:1"
  /\ ~ cited_after ["A:1"%string] ["S"%string] [CClear; CRegister "A:1"] "S".
Proof.
  split.
  - left. split; [now left|]. exists [CClear], []. repeat split; intros [].
  - intros [[_ [h1 [h2 (E & _)]]]|[_ [H|[h1 [h2 [E _]]]]]].
    + destruct h1 as [|? [|? [|]]]; discriminate.
    + apply H. now left.
    + destruct h1 as [|? [|? [|]]]; discriminate.
Qed.
