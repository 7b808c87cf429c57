(** * Lemmas: total Wilson coefficients *)
From Coq Require Import Reals Lra Lia.
From Coquelicot Require Import Coquelicot.
From Coq Require Import String List.
From Verif Require Import Base BaseLemmas Angular_Model Rare_Model WCtot_Model WCtot_Spec.
Import ListNotations.
Local Open Scope R_scope.
Local Open Scope string_scope.

(** ** dictionaries *)
Lemma get_add2 (a b : od string C) (n : string) : NoDup (map fst b) ->
  od_get n (add_dict2 a b) = match od_get n b with Some v => Some (v + match od_get n a with Some x => x | None => RtoC 0 end)%C | None => od_get n a end.
Proof.
  unfold add_dict2. revert a. induction b as [| [k v] b IH]; intros a N; [reflexivity |]. cbn [fold_left fst snd]. inversion N as [| k' b' n1 N']; subst.
  rewrite IH by exact N'. cbn [od_get]. destruct (eqb_spec n k) as [-> | e].
  - rewrite od_get_set_eq. destruct (od_get k b) eqn:G; [| reflexivity]. exfalso. apply n1. apply od_get_In_keys in G. exact G.
  - rewrite od_get_set_ne by exact e. reflexivity.
Qed.
(** ** interpolation *)
Lemma traverse_nth {A B} (f : A -> result B) (l : list A) (ys : list B) : traverse f l = Ok ys ->
  List.length ys = List.length l /\ forall i x, nth_error l i = Some x -> exists y, f x = Ok y /\ nth_error ys i = Some y.
Proof.
  revert ys. induction l as [| a l IH]; intros ys; cbn [traverse].
  - intros [= <-]. split; [reflexivity |]. intros [| i] x; discriminate.
  - destruct (f a) as [y | e] eqn:F; [| discriminate]. cbn [bind]. destruct (traverse f l) as [zs | e] eqn:T; [| discriminate]. cbn [bind]. intros H. injection H as <-.
    destruct (IH zs eq_refl) as (L & P). split; [cbn; now rewrite L |]. intros [| i] x; cbn [nth_error]; [intros H; injection H as <-; now exists y | apply P].
Qed.
Lemma traverse_ok {A B} (f : A -> result B) (l : list A) : (forall x, In x l -> exists y, f x = Ok y) -> exists ys, traverse f l = Ok ys.
Proof.
  induction l as [| a l IH]; intros H; [now eexists |]. cbn [traverse]. destruct (H a (or_introl eq_refl)) as (y & ->). cbn [bind].
  destruct IH as (ys & ->); [intros x X; apply H; now right |]. now eexists.
Qed.
Lemma interp_line (row : list R) (s : R) : List.length row = 8%nat -> 2 <= s <= 11 / 2 -> exists v, interp scales row s = Ok v /\ on_line row s v.
Proof.
  intros L (A & B). do 8 (destruct row as [| ? row]; [discriminate |]). destruct row; [| discriminate]. clear L. unfold scales. cbn [interp].
  destruct (Rle_dec s (5 / 2)); [eexists; split; [reflexivity |]; exists 0%nat; do 2 eexists; cbn; repeat split; try reflexivity; cbn; try lra; field |].
  destruct (Rle_dec s 3); [eexists; split; [reflexivity |]; exists 1%nat; do 2 eexists; cbn; repeat split; try reflexivity; cbn; try lra; field |].
  destruct (Rle_dec s (7 / 2)); [eexists; split; [reflexivity |]; exists 2%nat; do 2 eexists; cbn; repeat split; try reflexivity; cbn; try lra; field |].
  destruct (Rle_dec s 4); [eexists; split; [reflexivity |]; exists 3%nat; do 2 eexists; cbn; repeat split; try reflexivity; cbn; try lra; field |].
  destruct (Rle_dec s (9 / 2)); [eexists; split; [reflexivity |]; exists 4%nat; do 2 eexists; cbn; repeat split; try reflexivity; cbn; try lra; field |].
  destruct (Rle_dec s 5); [eexists; split; [reflexivity |]; exists 5%nat; do 2 eexists; cbn; repeat split; try reflexivity; cbn; try lra; field |].
  destruct (Rle_dec s (11 / 2)); [| lra]. eexists; split; [reflexivity |]; exists 6%nat; do 2 eexists; cbn; repeat split; try reflexivity; cbn; try lra; field.
Qed.
Lemma interp_outside (row : list R) (s : R) : List.length row = 8%nat -> 11 / 2 < s -> interp scales row s = Err ValueError.
Proof.
  intros K L. do 8 (destruct row as [| ? row]; [discriminate |]). destruct row; [| discriminate]. unfold scales. cbn [interp].
  destruct (Rle_dec s (5 / 2)); [lra |]. destruct (Rle_dec s 3); [lra |]. destruct (Rle_dec s (7 / 2)); [lra |]. destruct (Rle_dec s 4); [lra |]. destruct (Rle_dec s (9 / 2)); [lra |].
  destruct (Rle_dec s 5); [lra |]. destruct (Rle_dec s (11 / 2)); [lra |]. reflexivity.
Qed.
Lemma table_at (data : list (list R)) (s : R) : table_ok data -> 2 <= s <= 11 / 2 ->
  exists ys, wcsm_nf5 data s = Ok ys /\ List.length ys = 15%nat /\ forall i row, nth_error data i = Some row -> exists v, nth_error ys i = Some v /\ on_line row s v.
Proof.
  intros (L & F) B. unfold wcsm_nf5. destruct (Rlt_dec s 2); [lra |]. rewrite Forall_forall in F.
  destruct (traverse_ok (fun row => interp scales row s) data) as (ys & E).
  { intros row I. destruct (interp_line row s (F row I) B) as (v & E & _). now exists v. }
  exists ys. split; [exact E |]. destruct (traverse_nth _ _ _ E) as (L' & P). split; [congruence |]. intros i row N.
  destruct (P i row N) as (v & V & N'). exists v. split; [exact N' |]. destruct (interp_line row s) as (v' & V' & O); [apply F; eapply nth_error_In; exact N | exact B |].
  rewrite V' in V. injection V as <-. exact O.
Qed.
Lemma table_outside (data : list (list R)) (s : R) : table_ok data -> s < 2 \/ 11 / 2 < s -> wcsm_nf5 data s = Err ValueError.
Proof.
  intros (L & F) O. unfold wcsm_nf5. destruct (Rlt_dec s 2); [reflexivity |]. destruct data as [| row data]; [discriminate |]. cbn [traverse]. rewrite interp_outside; [reflexivity | now apply Forall_inv in F | lra].
Qed.

(** ** the nine sectors *)
Lemma nodup_bool (l : list string) : (fix nd (l : list string) : bool := match l with [] => true | x :: l => negb (existsb (String.eqb x) l) && nd l end)%bool l = true -> NoDup l.
Proof.
  induction l as [| x l IH]; intros H; [constructor |]. apply andb_prop in H as (N & H). constructor; [| now apply IH].
  intros I. apply Bool.negb_true_iff in N. assert (T : existsb (String.eqb x) l = true) by (apply existsb_exists; exists x; split; [exact I | apply String.eqb_refl]). congruence.
Qed.
Lemma SM_nodup (q l : string) t m e : In (q, l) sectors -> NoDup (map fst (SM_part q l t m e)).
Proof.
  intros H. unfold sectors in H. cbn [In] in H.
  repeat (destruct H as [H | H]; [injection H as <- <-; cbn; apply nodup_bool; vm_compute; reflexivity |]). contradiction.
Qed.
Definition cpart (l : list (string * R)) : od string C := map (fun kv => (fst kv, RtoC (snd kv))) l.
Definition nthR (ys : list R) (i : nat) : R := nth i ys 0.
(** the dictionary of the contributions of the Standard Model *)
Lemma sm_list (m_t : R) (ys : list R) : List.length ys = 15%nat -> let t := nthR ys in
  sm_noneff m_t ys = map RtoC [t 0%nat; t 1%nat; t 2%nat; t 3%nat; t 4%nat; t 5%nat; C7_noneff t; C8_noneff t; t 8%nat; t 9%nat * Rpower (m_t / (1731 / 10)) (153 / 100);
    t 10%nat; t 11%nat; t 12%nat; t 13%nat; t 14%nat].
Proof.
  intros L t. do 15 (destruct ys as [| ? ys]; [discriminate |]). destruct ys; [| discriminate]. clear L.
  unfold sm_noneff, upd, t, nthR, C7_noneff, C8_noneff. cbn [map nth_error firstn skipn app dot nth]. set (w := Rpower _ _). clearbody w.
  repeat (apply f_equal2; [try reflexivity; apply injective_projections; cbn [fst snd Cplus Cminus Copp Cmult RtoC]; field |]). reflexivity.
Qed.
Lemma labels_is (q l : string) : In (q, l) sectors -> key (q ++ l) fcnclabels = Ok (labels_of q l) /\ String.substring 0 2 (q ++ l) = q.
Proof. intros H. unfold sectors in H. cbn [In] in H. repeat (destruct H as [H | H]; [injection H as <- <-; split; vm_compute; reflexivity |]). contradiction. Qed.
Lemma bs_dict (l : string) (v0 v1 v2 v3 v4 v5 v6 v7 v8 v9 v10 v11 v12 v13 v14 : C) (e : C) (d : od string C) : In ("bs", l) sectors ->
  d = [("C1_bs", v0); ("C2_bs", v1); ("C3_bs", v2); ("C4_bs", v3); ("C5_bs", v4); ("C6_bs", v5); ("C7_bs", v6); ("C8_bs", v7); ("C9_bs" ++ l, v8); ("C10_bs" ++ l, v9);
    ("C3Q_bs", v10); ("C4Q_bs", v11); ("C5Q_bs", v12); ("C6Q_bs", v13); ("Cb_bs", v14)] ->
  bind (key "C7_bs" d) (fun c7 => let d := od_set "C7p_bs" (e * c7)%C d in bind (key "C8_bs" d) (fun c8 => Ok (od_set "C8p_bs" (e * c8)%C d)))
  = Ok (d ++ [("C7p_bs", e * v6); ("C8p_bs", e * v7)]%C)%list.
Proof.
  intros H E. unfold key. assert (E7 : od_get "C7_bs" d = Some v6) by (rewrite E; reflexivity). rewrite E7. cbn [bind]. cbv zeta.
  assert (S7 : forall w, od_set "C7p_bs" w d = (d ++ [("C7p_bs", w)])%list) by (intros w; rewrite E; reflexivity). rewrite S7.
  assert (E8 : forall w, od_get "C8_bs" (d ++ [("C7p_bs", w)])%list = Some v7) by (intros w; rewrite E; reflexivity). rewrite E8. cbn [bind].
  assert (S8 : forall w u, od_set "C8p_bs" u (d ++ [("C7p_bs", w)])%list = (d ++ [("C7p_bs", w); ("C8p_bs", u)])%list) by (intros w u; rewrite E; reflexivity). now rewrite S8.
Qed.
Lemma wctot_is (data : list (list R)) (np : od string C) (q l : string) (scale m_t ms mb : R) (ys : list R) : In (q, l) sectors -> wcsm_nf5 data scale = Ok ys -> List.length ys = 15%nat ->
  wctot_dict data (Ok np) (q ++ l) scale m_t ms mb 5 =
  let tot := add_dict2 np (cpart (SM_part q l (nthR ys) m_t (ms / mb))) in bind (get_C78eff tot q) (fun eff => Ok (od_update tot eff)).
Proof.
  intros H E L. unfold wctot_dict. cbn [bind Nat.eqb]. rewrite E. cbn [bind]. rewrite (sm_list m_t ys L). clear E L. unfold SM_part. set (t := nthR ys). clearbody t. set (w := Rpower _ _). clearbody w.
  set (c7 := C7_noneff t). set (c8 := C8_noneff t). clearbody c7 c8.
  destruct (labels_is q l H) as (K & Q). rewrite K, Q. cbn [bind]. clear K Q.
  match goal with |- context[combine ?a ?b] => set (d := combine a b) end.
  assert (D : d = [("C1_" ++ q, RtoC (t 0%nat)); ("C2_" ++ q, RtoC (t 1%nat)); ("C3_" ++ q, RtoC (t 2%nat)); ("C4_" ++ q, RtoC (t 3%nat)); ("C5_" ++ q, RtoC (t 4%nat)); ("C6_" ++ q, RtoC (t 5%nat));
    ("C7_" ++ q, RtoC c7); ("C8_" ++ q, RtoC c8); ("C9_" ++ q ++ l, RtoC (t 8%nat)); ("C10_" ++ q ++ l, RtoC (t 9%nat * w)%R);
    ("C3Q_" ++ q, RtoC (t 10%nat)); ("C4Q_" ++ q, RtoC (t 11%nat)); ("C5Q_" ++ q, RtoC (t 12%nat)); ("C6Q_" ++ q, RtoC (t 13%nat)); ("Cb_" ++ q, RtoC (t 14%nat))]) by reflexivity.
  clearbody d. change (eqb q "bs") with (String.eqb q "bs"). destruct (String.eqb_spec q "bs") as [-> | n].
  - change ("C9_" ++ "bs" ++ l) with ("C9_bs" ++ l) in *. change ("C10_" ++ "bs" ++ l) with ("C10_bs" ++ l) in *.
    pose proof (bs_dict l _ _ _ _ _ _ _ _ _ _ _ _ _ _ _ (RtoC (ms / mb)) d H D) as B. cbv zeta in B |- *. rewrite B. cbn [bind]. rewrite D. unfold cpart. cbn [app map fst snd]. now rewrite !RtoC_mult.
  - cbn [bind]. rewrite D. reflexivity.
Qed.
Lemma eff_ok (wc : od string C) (q : string) (c3 c4 c5 c6 c3p c4p c5p c6p c7 c8 c7p c8p : C) :
  od_get ("C3_" ++ q) wc = Some c3 -> od_get ("C4_" ++ q) wc = Some c4 -> od_get ("C5_" ++ q) wc = Some c5 -> od_get ("C6_" ++ q) wc = Some c6 ->
  od_get ("C3p_" ++ q) wc = Some c3p -> od_get ("C4p_" ++ q) wc = Some c4p -> od_get ("C5p_" ++ q) wc = Some c5p -> od_get ("C6p_" ++ q) wc = Some c6p ->
  od_get ("C7_" ++ q) wc = Some c7 -> od_get ("C8_" ++ q) wc = Some c8 -> od_get ("C7p_" ++ q) wc = Some c7p -> od_get ("C8p_" ++ q) wc = Some c8p ->
  get_C78eff wc q = Ok [("C7eff_" ++ q, C7_comb c7 c3 c4 c5 c6); ("C8eff_" ++ q, C8_comb c8 c3 c4 c5 c6);
    ("C7effp_" ++ q, C7_comb c7p c3p c4p c5p c6p); ("C8effp_" ++ q, C8_comb c8p c3p c4p c5p c6p)].
Proof.
  intros h1 h2 h3 h4 h5 h6 h7 h8 h9 h10 h11 h12. unfold get_C78eff, keys. cbn [traverse]. unfold key. rewrite h1, h2, h3, h4. cbn [bind]. rewrite h5, h6, h7, h8. cbn [bind]. rewrite h9, h10. cbn [bind]. rewrite h11, h12. cbn [bind dot map].
  unfold C7_comb, C8_comb. refine (f_equal Ok _). repeat (apply f_equal2; [apply f_equal2; [reflexivity |]; apply injective_projections; cbn [fst snd Cplus Cminus Copp Cmult RtoC]; field |]). reflexivity.
Qed.

Lemma notin_bool (n : string) (l : list string) : existsb (String.eqb n) l = false -> ~ In n l.
Proof. intros E I. assert (T : existsb (String.eqb n) l = true) by (apply existsb_exists; exists n; split; [exact I | apply String.eqb_refl]). congruence. Qed.
Lemma not_SM (q l n : string) t m e : In (q, l) sectors -> In n (["C3p_" ++ q; "C4p_" ++ q; "C5p_" ++ q; "C6p_" ++ q] ++ (if String.eqb q "bs" then [] else ["C7p_" ++ q; "C8p_" ++ q])) ->
  ~ In n (map fst (SM_part q l t m e)).
Proof.
  intros H. unfold sectors in H. cbn [In] in H.
  repeat (destruct H as [H | H]; [injection H as <- <-; intros I; cbn in I; repeat (destruct I as [<- | I]; [apply notin_bool; reflexivity |]); contradiction |]). contradiction.
Qed.
Lemma app_name (a b q : string) : a <> b -> a ++ q <> b ++ q.
Proof.
  assert (L : forall a, String.length (a ++ q) = (String.length a + String.length q)%nat) by (intros x; induction x as [| c x IH]; cbn; congruence).
  revert b. induction a as [| c a IH]; intros [| c' b] n E.
  - congruence.
  - cbn in E. apply (f_equal String.length) in E. cbn in E. rewrite L in E. lia.
  - cbn in E. apply (f_equal String.length) in E. cbn in E. rewrite L in E. lia.
  - cbn in E. injection E as -> E. apply (IH b); [congruence | exact E].
Qed.
Lemma eff_not_SM (q l n : string) t m e : In (q, l) sectors -> In n (eff_names q) -> ~ In n (map fst (SM_part q l t m e)).
Proof.
  intros H. unfold sectors in H. cbn [In] in H.
  repeat (destruct H as [H | H]; [injection H as <- <-; intros I; cbn in I; repeat (destruct I as [<- | I]; [apply notin_bool; reflexivity |]); contradiction |]). contradiction.
Qed.
