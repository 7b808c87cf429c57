(** * Proofs about correlation matrices and the readers of data files *)
From Coq Require Import Reals Lra Lia.
From Verif Require Import Base BaseLemmas Loading_Model Loading_Spec.
Local Open Scope R_scope.

Lemma nth_map_seq {T} (g : nat -> T) n i d : (i < n)%nat -> nth i (map g (seq 0 n)) d = g i.
Proof.
  intro Hi. rewrite nth_indep with (d' := g 0%nat) by (rewrite map_length, seq_length; exact Hi).
  rewrite (map_nth g), seq_nth by exact Hi. reflexivity.
Qed.
Lemma nth_build n (f : nat -> nat -> R) i j : (i < n)%nat -> (j < n)%nat -> entry (build n f) i j = f i j.
Proof.
  intros Hi Hj. unfold entry, build. rewrite (nth_map_seq (fun i => map (f i) (seq 0 n))) by exact Hi. apply nth_map_seq, Hj.
Qed.
Lemma build_square n f : square n (build n f).
Proof.
  split; unfold build.
  - rewrite map_length, seq_length. reflexivity.
  - apply Forall_forall. intros r Hr. apply in_map_iff in Hr as (i & <- & _). rewrite map_length, seq_length. reflexivity.
Qed.
Lemma at_entry m i j : at_ m i j = entry m i j. Proof. reflexivity. Qed.

Lemma fix_scalar x n : exists m, fix_correlation_matrix (CNum x) n = Ok m /\ square n m /\
  forall i j, (i < n)%nat -> (j < n)%nat -> at_ m i j = if Nat.eqb i j then 1 else x.
Proof.
  eexists. split; [reflexivity|]. split; [apply build_square|]. intros i j Hi Hj. rewrite at_entry, nth_build by assumption.
  unfold eye. destruct (Nat.eqb i j); ring.
Qed.

Lemma fix_line_ok n i r : (i < n)%nat ->
  (exists l, fix_line n i r = Ok l) <-> good_line n i r.
Proof.
  intro Hi. unfold fix_line, good_line. destruct r as [l|].
  - destruct (Nat.eqb_spec (length l) n) as [E|E]; [|destruct (Nat.eqb_spec (length l) (n - i)) as [E'|E']].
    + destruct (Req_EM_T (nth i l 0) 1) as [H1|H1]; split.
      * intros _. exists l. auto.
      * intros _. eauto.
      * intros (? & [=]).
      * intros (l' & [= <-] & [(_ & H)|(H & H')]); [contradiction|]. assert (i = 0)%nat by lia. subst i. contradiction.
    + destruct (Req_EM_T (nth 0 l 0) 1) as [H1|H1]; split.
      * intros _. exists l. auto.
      * intros _. eauto.
      * intros (? & [=]).
      * intros (l' & [= <-] & [(H & _)|(_ & H')]); contradiction.
    + split; [intros (? & [=])|]. intros (l' & [= <-] & [(H & _)|(H & _)]); contradiction.
  - split; [intros (? & [=])|]. intros (? & [=] & _).
Qed.
Lemma fix_line_len n i r l : (i < n)%nat -> fix_line n i r = Ok l -> length l = n /\ nth i l 0 = 1.
Proof.
  intros Hi. unfold fix_line. destruct r as [l'|]; [|discriminate].
  destruct (Nat.eqb_spec (length l') n) as [E|E].
  - destruct (Req_EM_T (nth i l' 0) 1) as [H1|H1]; [|discriminate]. intros [= <-]. auto.
  - destruct (Nat.eqb_spec (length l') (n - i)) as [E'|E']; [|discriminate].
    destruct (Req_EM_T (nth 0 l' 0) 1) as [H1|H1]; [|discriminate]. intros [= <-].
    rewrite app_length, repeat_length, app_nth2, repeat_length, Nat.sub_diag; [|rewrite repeat_length; lia].
    split; [lia|exact H1].
Qed.
Lemma fix_line_err n i r e : fix_line n i r = Err e -> e = ValueError \/ (e = TypeError /\ r = NoRow).
Proof.
  unfold fix_line. destruct r; [|intros [= <-]; auto].
  destruct (Nat.eqb _ _); [|destruct (Nat.eqb _ _)]; try destruct (Req_EM_T _ _); intros [= <-]; auto.
Qed.

Lemma fix_lines_ok n rows : forall k, (k + length rows <= n)%nat ->
  (exists m, fix_lines n k rows = Ok m) <-> (forall i, (i < length rows)%nat -> good_line n (k + i) (nth i rows NoRow)).
Proof.
  induction rows as [|r rows IH]; intros k Hk; cbn [fix_lines length] in *.
  - split; [intros _ i Hi; lia|]. intros _. eauto.
  - specialize (IH (Datatypes.S k) ltac:(lia)). split.
    + intros (m & E). destruct (fix_line n k r) as [l|] eqn:El; [|discriminate]. cbn [bind] in E.
      destruct (fix_lines n (Datatypes.S k) rows) as [ls|] eqn:Els; [|discriminate].
      intros [|i] Hi.
      * rewrite Nat.add_0_r. apply fix_line_ok; [lia|eauto].
      * cbn [nth]. replace (k + Datatypes.S i)%nat with (Datatypes.S k + i)%nat by lia. apply IH; [eauto|lia].
    + intro H. assert (H0 : good_line n k r) by (specialize (H 0%nat ltac:(lia)); rewrite Nat.add_0_r in H; exact H).
      apply fix_line_ok in H0 as (l & El); [|lia]. rewrite El. cbn [bind].
      assert (Hr : exists m, fix_lines n (Datatypes.S k) rows = Ok m).
      { apply IH. intros i Hi. specialize (H (Datatypes.S i) ltac:(lia)). cbn [nth] in H.
        replace (Datatypes.S k + i)%nat with (k + Datatypes.S i)%nat by lia. exact H. }
      destruct Hr as (ls & Els). rewrite Els. cbn [bind]. eauto.
Qed.
Lemma fix_lines_err n rows : forall k e, fix_lines n k rows = Err e -> e = ValueError \/ (e = TypeError /\ In NoRow rows).
Proof.
  induction rows as [|r rows IH]; intros k e; cbn [fix_lines]; [discriminate|].
  destruct (fix_line n k r) as [l|e'] eqn:El; cbn [bind].
  - destruct (fix_lines n (Datatypes.S k) rows) as [ls|e'] eqn:Els; [discriminate|]. intros [= <-].
    destruct (IH _ _ Els) as [->|(-> & H)]; [auto|right; split; [reflexivity|right; exact H]].
  - intros [= <-]. destruct (fix_line_err _ _ _ _ El) as [->|(-> & ->)]; [auto|right; split; [reflexivity|left; reflexivity]].
Qed.
Lemma fix_lines_nth n rows : forall k m, fix_lines n k rows = Ok m ->
  length m = length rows /\ forall i, (i < length rows)%nat -> fix_line n (k + i) (nth i rows NoRow) = Ok (nth i m []).
Proof.
  induction rows as [|r rows IH]; intros k m; cbn [fix_lines].
  - intros [= <-]. split; [reflexivity|]. intros i Hi. inversion Hi.
  - destruct (fix_line n k r) as [l|] eqn:El; [|discriminate]. cbn [bind].
    destruct (fix_lines n (Datatypes.S k) rows) as [ls|] eqn:Els; [|discriminate]. intros [= <-].
    destruct (IH _ _ Els) as [Hl Hn]. split; [cbn; lia|]. intros [|i] Hi.
    + rewrite Nat.add_0_r. exact El.
    + cbn [nth]. replace (k + Datatypes.S i)%nat with (Datatypes.S k + i)%nat by lia. apply Hn. cbn in Hi; lia.
Qed.

Lemma close_spec a b : close a b = true <-> Rabs (a - b) <= 1e-8 + 1e-5 * Rabs b.
Proof. unfold close. destruct (Rle_dec _ _); split; intro; try assumption; try reflexivity; try discriminate; contradiction. Qed.
Lemma allclose_spec n a b : allclose n a b = true <->
  forall i j, (i < n)%nat -> (j < n)%nat -> Rabs (a i j - b i j) <= 1e-8 + 1e-5 * Rabs (b i j).
Proof.
  unfold allclose. rewrite forallb_forall. split.
  - intros H i j Hi Hj. specialize (H i). rewrite forallb_forall in H. apply close_spec, H; apply in_seq; lia.
  - intros H i Hi. apply in_seq in Hi. apply forallb_forall. intros j Hj. apply in_seq in Hj. apply close_spec, H; lia.
Qed.

(** success and its consequences *)
Lemma fix_list_inv rows n m : fix_correlation_matrix (CList rows) n = Ok m ->
  length rows = n /\ exists m0, fix_lines n 0 rows = Ok m0 /\
    ((m = m0 /\ allclose n (entry m0) (fun i j => entry m0 j i) = true) \/
     (allclose n (entry m0) (fun i j => entry m0 j i) = false /\
      m = build n (fun i j => entry m0 i j + entry m0 j i - (if Nat.eqb i j then entry m0 i i else 0)))).
Proof.
  unfold fix_correlation_matrix. destruct (Nat.eqb_spec (length rows) n) as [E|E]; cbn [negb]; [|discriminate].
  destruct (fix_lines n 0 rows) as [m0|] eqn:Em; cbn [bind]; [|discriminate].
  intro H. split; [exact E|]. exists m0. split; [reflexivity|].
  destruct (allclose n (fun i j => entry m0 i j) (fun i j => entry m0 j i)) eqn:Ea; injection H as <-; auto.
Qed.
Lemma lines_square n rows m0 : length rows = n -> fix_lines n 0 rows = Ok m0 -> square n m0 /\ unit_diagonal n m0.
Proof.
  intros E Em. destruct (fix_lines_nth n rows 0 m0 Em) as [Hl Hn].
  assert (H : forall i, (i < n)%nat -> length (nth i m0 []) = n /\ nth i (nth i m0 []) 0 = 1).
  { intros i Hi. apply (fix_line_len n i (nth i rows NoRow)); [exact Hi|]. apply (Hn i). lia. }
  split; [split|].
  - congruence.
  - apply Forall_forall. intros r Hr. apply (In_nth _ _ []) in Hr as (i & Hi & <-). apply H. lia.
  - intros i Hi. apply H, Hi.
Qed.
Lemma fix_list_shape rows n m : fix_correlation_matrix (CList rows) n = Ok m -> square n m /\ unit_diagonal n m.
Proof.
  intro H. destruct (fix_list_inv _ _ _ H) as (E & m0 & Em & Hm). destruct (lines_square _ _ _ E Em) as (Hs & Hu).
  destruct Hm as [(-> & _)|(_ & ->)]; [auto|]. split; [apply build_square|].
  intros i Hi. rewrite at_entry, nth_build by assumption. rewrite Nat.eqb_refl. specialize (Hu i Hi). rewrite at_entry in Hu. lra.
Qed.
Lemma fix_list_success rows n : (exists m, fix_correlation_matrix (CList rows) n = Ok m) <->
  length rows = n /\ forall i, (i < n)%nat -> good_line n i (nth i rows NoRow).
Proof.
  split.
  - intros (m & H). destruct (fix_list_inv _ _ _ H) as (E & m0 & Em & _). split; [exact E|].
    intros i Hi. apply (proj1 (fix_lines_ok n rows 0 ltac:(lia)) (ex_intro _ _ Em) i). lia.
  - intros (E & Hg). destruct (proj2 (fix_lines_ok n rows 0 ltac:(lia))) as (m0 & Em).
    { intros i Hi. apply Hg. lia. }
    unfold fix_correlation_matrix. rewrite E, Nat.eqb_refl. cbn [negb]. rewrite Em. cbn [bind].
    destruct (allclose _ _ _); eauto.
Qed.
Lemma fix_list_error rows n e : fix_correlation_matrix (CList rows) n = Err e -> e = ValueError \/ (e = TypeError /\ In NoRow rows).
Proof.
  unfold fix_correlation_matrix. destruct (negb _); [intros [= <-]; auto|].
  destruct (fix_lines n 0 rows) as [m0|e'] eqn:Em; cbn [bind].
  - destruct (allclose _ _ _); discriminate.
  - intros [= <-]. eapply fix_lines_err, Em.
Qed.

Lemma nth_map_row u i : (i < length u)%nat -> nth i (map Row u) NoRow = Row (nth i u []).
Proof. intro H. rewrite nth_indep with (d' := Row []) by (rewrite map_length; exact H). apply map_nth. Qed.
Lemma triangle_lines n u m0 : triangle n u -> fix_lines n 0 (map Row u) = Ok m0 ->
  forall i j, (i < n)%nat -> (j < n)%nat -> entry m0 i j = if Nat.leb i j then above u i j else 0.
Proof.
  intros (Hl & Hu) Em i j Hi Hj. destruct (fix_lines_nth n _ 0 m0 Em) as [Hlm Hn].
  assert (Hlen : length (map Row u) = n) by (rewrite map_length; exact Hl).
  specialize (Hn i ltac:(lia)). rewrite nth_map_row in Hn by lia. cbn [plus fix_line] in Hn.
  destruct (Hu i Hi) as (Hli & H1). unfold entry, above.
  destruct (Nat.eqb_spec (length (nth i u [])) n) as [E|E].
  - assert (i = 0)%nat by lia. subst i. destruct (Req_EM_T _ 1); [|discriminate]. injection Hn as <-.
    cbn [Nat.leb]. rewrite Nat.sub_0_r. reflexivity.
  - destruct (Nat.eqb_spec (length (nth i u [])) (n - i)) as [E'|E']; [|discriminate].
    destruct (Req_EM_T _ 1); [|discriminate]. injection Hn as <-.
    destruct (Nat.leb_spec i j) as [Hij|Hij].
    + rewrite app_nth2 by (rewrite repeat_length; lia). rewrite repeat_length. reflexivity.
    + rewrite app_nth1 by (rewrite repeat_length; lia). apply nth_repeat.
Qed.
Lemma triangle_good n u : triangle n u -> forall i, (i < n)%nat -> good_line n i (nth i (map Row u) NoRow).
Proof.
  intros (Hl & Hu) i Hi. rewrite nth_map_row by lia. destruct (Hu i Hi) as (Hli & H1). exists (nth i u []). split; [reflexivity|]. right. auto.
Qed.
Lemma fix_triangle n u : triangle n u ->
  (exists i j, (i < j < n)%nat /\ Rabs (above u i j) > 1e-8) \/ (forall i j, (i < j < n)%nat -> above u i j = 0) ->
  exists m, fix_correlation_matrix (CList (map Row u)) n = Ok m /\ square n m /\
    forall i j, (i <= j < n)%nat -> at_ m i j = above u i j /\ at_ m j i = above u i j.
Proof.
  intros Ht Hcase. destruct (proj2 (fix_list_success (map Row u) n)) as (m & Hm).
  { split; [rewrite map_length; apply Ht|]. apply triangle_good, Ht. }
  exists m. split; [exact Hm|]. split; [apply (fix_list_shape _ _ _ Hm)|].
  destruct (fix_list_inv _ _ _ Hm) as (E & m0 & Em & Hcases). pose proof (triangle_lines n u m0 Ht Em) as He.
  assert (Hd : forall i, (i < n)%nat -> entry m0 i i = above u i i).
  { intros i Hi. rewrite He by assumption. rewrite Nat.leb_refl. reflexivity. }
  assert (Hup : forall i j, (i < j < n)%nat -> entry m0 i j = above u i j /\ entry m0 j i = 0).
  { intros i j Hij. rewrite !He by lia. rewrite (proj2 (Nat.leb_le i j)) by lia. rewrite (proj2 (Nat.leb_gt j i)) by lia. auto. }
  destruct Hcases as [(-> & Ha)|(Ha & ->)].
  - assert (Hz : forall i j, (i < j < n)%nat -> above u i j = 0).
    { destruct Hcase as [(i & j & Hij & Hbig)|Hz]; [|exact Hz]. exfalso.
      pose proof (proj1 (allclose_spec n _ _) Ha) as Hc. cbv beta in Hc. specialize (Hc i j ltac:(lia) ltac:(lia)).
      destruct (Hup i j Hij) as (E1 & E2). rewrite E1, E2, Rminus_0_r, Rabs_R0 in Hc. lra. }
    intros i j Hij. destruct (Nat.eq_dec i j) as [->|Hne].
    + rewrite !at_entry, Hd by lia. auto.
    + destruct (Hup i j ltac:(lia)) as (E1 & E2). rewrite Hz in * by lia. split; assumption.
  - intros i j Hij. rewrite !at_entry, !nth_build by lia. cbv beta. destruct (Nat.eq_dec i j) as [->|Hne].
    + rewrite Nat.eqb_refl, Hd by lia. split; ring.
    + rewrite (proj2 (Nat.eqb_neq i j)), (proj2 (Nat.eqb_neq j i)) by lia. destruct (Hup i j ltac:(lia)) as (E1 & E2). rewrite E1, E2. split; ring.
Qed.

Lemma nth_eq {T} (d : T) (l l' : list T) : length l = length l' -> (forall i, (i < length l)%nat -> nth i l d = nth i l' d) -> l = l'.
Proof. intros H1 H2. apply (nth_ext _ _ d d); assumption. Qed.
Lemma full_lines n f : square n f -> unit_diagonal n f -> fix_lines n 0 (map Row f) = Ok f.
Proof.
  intros (Hl & Hr) Hu. rewrite Forall_forall in Hr.
  assert (Hlen : length (map Row f) = n) by (rewrite map_length; exact Hl).
  destruct (proj2 (fix_lines_ok n (map Row f) 0 ltac:(lia))) as (m0 & Em).
  { intros i Hi. rewrite Hlen in Hi. rewrite nth_map_row by lia. exists (nth i f []). split; [reflexivity|]. left.
    split; [apply Hr, nth_In; lia|apply Hu, Hi]. }
  rewrite Em. f_equal. destruct (fix_lines_nth n _ 0 m0 Em) as [Hlm Hn].
  apply (nth_eq []); [congruence|]. intros i Hi. specialize (Hn i ltac:(lia)). rewrite nth_map_row in Hn by lia. cbn [plus fix_line] in Hn.
  rewrite (Hr (nth i f [])), Nat.eqb_refl in Hn by (apply nth_In; lia).
  destruct (Req_EM_T _ 1); [|discriminate]. injection Hn as <-. reflexivity.
Qed.
Lemma fix_full n f : square n f -> unit_diagonal n f -> symmetric n f -> fix_correlation_matrix (CList (map Row f)) n = Ok f.
Proof.
  intros Hs Hu Hsym. unfold fix_correlation_matrix. rewrite map_length, (proj1 Hs), Nat.eqb_refl. cbn [negb].
  rewrite full_lines by assumption. cbn [bind].
  rewrite (proj2 (allclose_spec n _ _)); [reflexivity|]. intros i j Hi Hj.
  specialize (Hsym i j Hi Hj). rewrite !at_entry in Hsym. rewrite Hsym, Rminus_diag_eq, Rabs_R0 by reflexivity.
  pose proof (Rabs_pos (entry f j i)). lra.
Qed.

(** *** Errors *)
Lemma fold_plus {T} (g : T -> R) l : forall s, fold_left (fun s x => s + g x) l s = s + sum_of (map g l).
Proof. unfold sum_of. induction l as [|x l IH]; intro s; cbn [fold_left map fold_right]; [ring|]. rewrite IH. ring. Qed.
Lemma squared_error_spec e : squared_error e = variance e.
Proof. unfold squared_error, variance. rewrite (fold_plus (fun ab : R * R => fst ab * snd ab)), (fold_plus (fun x => x ^ 2)). ring. Qed.
