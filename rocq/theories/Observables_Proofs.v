From Verif Require Import Base BaseLemmas Constraints_Model Constraints_Spec Constraints_Proofs
  ConstraintsIO_Model Observables_Model Observables_Spec.

(** ** argument_format *)
Section AF.
  Context {A : Type}.
  Variable reg : od string (option (list string)).
  Implicit Types (n : string) (args : list string) (vals : list (pyval A)) (d : od string (pyval A)).

  Lemma od_update_new (d : od string (pyval A)) l :
    NoDup (od_keys l) -> (forall k, In k (od_keys l) -> ~ In k (od_keys d)) -> od_update d l = d ++ l.
  Proof.
    revert d; induction l as [|[k v] l IH]; intros d Hnd Hdis; cbn.
    - rewrite app_nil_r. reflexivity.
    - cbn in Hnd. inversion Hnd as [|? ? Hni Hnd']; subst.
      unfold od_update in *. rewrite od_set_new by (apply Hdis; left; reflexivity).
      rewrite IH; [rewrite <- app_assoc; reflexivity|exact Hnd'|].
      intros k' Hk' Hin. unfold od_keys in Hin. rewrite map_app in Hin. apply in_app_or in Hin as [Hin|[<-|[]]].
      + apply (Hdis k'); [right; exact Hk'|exact Hin].
      + exact (Hni Hk').
  Qed.

  Lemma combine_keys args vals : length args = length vals -> od_keys (combine args vals) = args.
  Proof.
    revert vals; induction args as [|a args IH]; intros [|v vals]; cbn; try discriminate; [reflexivity|].
    intros [= E]. f_equal. apply IH. exact E.
  Qed.

  Lemma dict_of_args_eq n args vals : NoDup args -> ~ In "name"%string args -> length args = length vals ->
    dict_of_args (VStr n) args vals = ("name"%string, VStr n) :: combine args vals.
  Proof.
    intros Hnd Hni Hlen. unfold dict_of_args. rewrite od_update_new; [reflexivity| |].
    - rewrite combine_keys by exact Hlen. exact Hnd.
    - rewrite combine_keys by exact Hlen. cbn. intros k Hk [<-|[]]. exact (Hni Hk).
  Qed.

  Lemma mapM_combine args vals (d0 : od string (pyval A)) : NoDup args -> length args = length vals ->
    (forall a, In a args -> ~ In a (od_keys d0)) ->
    mapM (fun k => match od_get k (d0 ++ combine args vals) with Some v => Ok v | None => Err KeyError end) args = Ok vals.
  Proof.
    revert vals d0; induction args as [|a args IH]; intros [|v vals] d0 Hnd Hlen Hdis; cbn; try discriminate; [reflexivity|].
    inversion Hnd as [|? ? Hni Hnd']; subst.
    assert (Ha : od_get a (d0 ++ (a, v) :: combine args vals) = Some v).
    { clear IH Hnd Hlen. induction d0 as [|[k0 v0] d0 IHd]; cbn; [rewrite eqb_refl; reflexivity|].
      destruct (eqb_spec a k0) as [->|ne].
      - exfalso. apply (Hdis k0); cbn; left; reflexivity.
      - apply IHd. intros b Hb Hin. apply (Hdis b Hb). right. exact Hin. }
    rewrite Ha. cbn [bind].
    replace (d0 ++ (a, v) :: combine args vals) with ((d0 ++ [(a, v)]) ++ combine args vals)
      by (rewrite <- app_assoc; reflexivity).
    rewrite IH; [reflexivity|exact Hnd'|cbn in Hlen; lia|].
    intros b Hb Hin. unfold od_keys in Hin. rewrite map_app in Hin. apply in_app_or in Hin as [Hin|[<-|[]]].
    - apply (Hdis b); [right; exact Hb|exact Hin].
    - exact (Hni Hb).
  Qed.

  Lemma combine_get args vals i a v : NoDup args ->
    nth_error args i = Some a -> nth_error vals i = Some v -> od_get a (combine args vals) = Some v.
  Proof.
    revert vals i; induction args as [|b args IH]; intros [|w vals] [|i] Hnd; cbn; try discriminate.
    - intros [= ->] [= ->]. rewrite eqb_refl. reflexivity.
    - intros Ha Hv. inversion Hnd as [|? ? Hni Hnd']; subst.
      destruct (eqb_spec a b) as [->|ne]; [exfalso; apply Hni; eapply nth_error_In; eassumption|].
      eapply IH; eassumption.
  Qed.

  Lemma tuple_dict_tuple n args vals :
    od_get n reg = Some (Some args) -> NoDup args -> ~ In "name"%string args -> length vals = length args ->
    exists d, argument_format reg (ISeq (VStr n :: vals)) FDict = Ok (ODict d) /\
      argument_format reg (IDict d) FTuple = Ok (OTuple (VStr n :: vals)) /\
      argument_format reg (IDict d) FList = Ok (OList (VStr n :: vals)) /\
      od_keys d = "name"%string :: args /\ od_get "name"%string d = Some (VStr n) /\
      (forall i a v, nth_error args i = Some a -> nth_error vals i = Some v -> od_get a d = Some v).
  Proof.
    intros Hreg Hnd Hni Hlen. symmetry in Hlen.
    exists (("name"%string, VStr n) :: combine args vals).
    unfold argument_format, lookup_args. rewrite Hreg. cbn [bind]. rewrite Hlen, Nat.eqb_refl.
    rewrite dict_of_args_eq by assumption. cbn [finish].
    assert (Hget : od_get "name"%string (("name"%string, VStr n) :: combine args vals) = Some (VStr n)).
    { cbn. reflexivity. }
    rewrite Hget. rewrite Hreg. cbn [bind].
    pose proof (mapM_combine args vals [("name"%string, VStr n)] Hnd Hlen) as Hm. cbn [app] in Hm.
    rewrite Hm by (cbn; intros a Ha [<-|[]]; exact (Hni Ha)).
    cbn [bind finish]. do 3 (split; [reflexivity|]).
    split; [cbn; change (map fst (combine args vals)) with (od_keys (combine args vals)); rewrite combine_keys by exact Hlen; reflexivity|].
    split; [reflexivity|]. intros i a v Ha Hv. cbn.
    destruct (eqb_spec a "name"%string) as [->|ne]; [exfalso; apply Hni; eapply nth_error_In; eassumption|].
    eapply combine_get; eassumption.
  Qed.

  Lemma dict_tuple_dict n args d :
    od_get n reg = Some (Some args) -> NoDup args -> ~ In "name"%string args ->
    od_get "name"%string d = Some (VStr n) -> (forall a, In a args -> od_get a d <> None) ->
    exists l d', argument_format reg (IDict d) FTuple = Ok (OTuple l) /\
      argument_format reg (ISeq l) FDict = Ok (ODict d') /\
      od_keys d' = "name"%string :: args /\
      (forall k, In k ("name"%string :: args) -> od_get k d' = od_get k d).
  Proof.
    intros Hreg Hnd Hni Hname Hall.
    destruct (mapM_total (fun k => match od_get k d with Some v => Ok v | None => Err KeyError end) args) as [vals Hv].
    { intros a Ha. specialize (Hall a Ha). destruct (od_get a d); [eauto|congruence]. }
    exists (VStr n :: vals).
    assert (HF := proj1 (mapM_Ok _ _ _) Hv).
    assert (Hlen : length vals = length args) by (clear - HF; induction HF; cbn; congruence).
    destruct (tuple_dict_tuple n args vals Hreg Hnd Hni Hlen) as [d' [E1 [_ [_ [Hk [Hn Hg]]]]]].
    exists d'. split; [|split; [exact E1|split; [exact Hk|]]].
    - unfold argument_format, lookup_args. rewrite Hname, Hreg. cbn [bind]. rewrite Hv. reflexivity.
    - intros k [<-|Hk0]; [rewrite Hn, Hname; reflexivity|].
      apply In_nth_error in Hk0 as [i Hi].
      destruct (nth_error vals i) as [v|] eqn:Ev.
      + rewrite (Hg _ _ _ Hi Ev). clear - HF Hi Ev. revert i Hi Ev.
        induction HF as [|x y xs ys Hxy HF IH]; intros [|i]; cbn; try discriminate.
        * intros [= ->] [= ->]. destruct (od_get k d); congruence.
        * apply IH.
      + exfalso. apply nth_error_None in Ev.
        assert (i < length args) by (apply nth_error_Some; congruence). lia.
  Qed.

  Lemma af_string n : od_get n reg = Some None ->
    argument_format (A:=A) reg (IStr n) FTuple = Ok (OStr n) /\
    argument_format (A:=A) reg (IStr n) FList = Ok (OStr n) /\
    argument_format (A:=A) reg (IStr n) FDict = Ok (ODict [("name"%string, VStr n)]) /\
    argument_format (A:=A) reg (IDict [("name"%string, VStr n)]) FTuple = Ok (OStr n).
  Proof. intro E. cbn. rewrite !E. cbn. rewrite eqb_refl. cbn. rewrite E. repeat split; reflexivity. Qed.

  Lemma af_unknown n f vals d : od_get n reg = None ->
    argument_format (A:=A) reg (IStr n) f = Err KeyError /\
    argument_format reg (ISeq (VStr n :: vals)) f = Err KeyError /\
    (od_get "name"%string d = Some (VStr n) -> argument_format reg (IDict d) f = Err KeyError).
  Proof.
    intro E. cbn. rewrite E. cbn. split; [reflexivity|]. split; [reflexivity|].
    intros ->. cbn. rewrite E. reflexivity.
  Qed.

  Lemma af_wrong_number n a f vals : od_get n reg = Some a ->
    (match a with Some args => length vals <> length args | None => True end) ->
    argument_format reg (ISeq (VStr n :: vals)) f = Err ValueError.
  Proof.
    intros E Hl. cbn. rewrite E. cbn. destruct a as [args|]; [|reflexivity].
    destruct (Nat.eqb_spec (length args) (length vals)); [congruence|reflexivity].
  Qed.
  Lemma af_missing_arguments n args f d : od_get n reg = Some (Some args) ->
    argument_format (A:=A) reg (IStr n) f = Err ValueError /\
    (od_get "name"%string d = Some (VStr n) -> (exists a, In a args /\ od_get a d = None) ->
     argument_format reg (IDict d) f = Err KeyError).
  Proof.
    intro E. cbn. rewrite E. cbn. split; [reflexivity|]. intros -> [a [Ha Hn]]. cbn. rewrite E. cbn.
    assert (Hm : mapM (fun k => match od_get k d with Some v => Ok v | None => Err KeyError end) args = Err KeyError).
    { clear E. induction args as [|b args IH]; [destruct Ha|]. cbn.
      destruct Ha as [->|Ha]; [rewrite Hn; reflexivity|].
      destruct (od_get b d); cbn; [|reflexivity]. rewrite IH by exact Ha. reflexivity. }
    rewrite Hm. reflexivity.
  Qed.
End AF.

(** ** Taxonomy *)
Lemma dicts_id : forall t, dicts t = t.
Proof.
  fix IH 1. intros [l]. cbn. f_equal. induction l as [|[k c] l IHl]; [reflexivity|].
  rewrite IHl. rewrite (IH c). reflexivity.
Qed.

Fixpoint tree_ok (t : tree) : Prop :=
  match t with
  | Node l => NoDup (map fst l) /\ (fix all l := match l with [] => True | (_, c) :: l' => tree_ok c /\ all l' end) l
  end.
Lemma tree_ok_eq l : tree_ok (Node l) <-> NoDup (od_keys l) /\ forall n c, In (n, c) l -> tree_ok c.
Proof.
  cbn. unfold od_keys. apply and_iff_compat_l. induction l as [|[k c] l IH]; cbn.
  - split; [intros _ n c []|tauto].
  - rewrite IH. split.
    + intros [Hc Hl] n c' [[= <- <-]|Hin]; eauto.
    + intro Hall. split; [eapply Hall; left; reflexivity|]. intros n c' Hin. eapply Hall. right. exact Hin.
Qed.

Lemma od_set_In {V} (n : string) (x : V) (l : od string V) k v :
  NoDup (od_keys l) -> (In (k, v) (od_set n x l) <-> (k = n /\ v = x) \/ (k <> n /\ In (k, v) l)).
Proof.
  intro Hnd. split.
  - intro Hin. apply od_In_get in Hin; [|apply od_set_NoDup; exact Hnd].
    rewrite od_get_set in Hin. destruct (eqb_spec k n) as [->|ne]; [left; split; congruence|].
    right. split; [exact ne|]. apply od_get_Some_In. exact Hin.
  - intros [[-> ->]|[ne Hin]].
    + apply od_get_Some_In. apply od_get_set_eq.
    + apply od_get_Some_In. rewrite od_get_set_ne by exact ne. apply od_In_get; assumption.
Qed.

Lemma insert_ok path : forall t, tree_ok t -> tree_ok (insert_path path t).
Proof.
  induction path as [|n path IH]; intros [l] Hok; [exact Hok|]. cbn [insert_path children].
  apply tree_ok_eq in Hok as [Hnd Hc]. apply tree_ok_eq. split; [apply od_set_NoDup; exact Hnd|].
  intros k c Hin. apply od_set_In in Hin; [|exact Hnd].
  destruct Hin as [[-> ->]|[ne Hin]]; [|eauto].
  apply IH. destruct (od_get n l) as [c|] eqn:E.
  - apply (Hc n). apply od_get_Some_In. exact E.
  - apply tree_ok_eq. split; [constructor|intros ? ? []].
Qed.

Lemma has_path_insert path : forall t p, tree_ok t ->
  has_path p (insert_path path t) <-> has_path p t \/ is_prefix p path.
Proof.
  induction path as [|n path IH]; intros [l] p Hok.
  - cbn. split; [tauto|]. intros [Hp|[r Hr]]; [exact Hp|].
    symmetry in Hr. apply app_eq_nil in Hr as [-> _]. exact I.
  - destruct p as [|m p]; [cbn; split; [intros _; left; exact I|tauto]|].
    cbn [insert_path children has_path]. apply tree_ok_eq in Hok as [Hnd Hc].
    assert (Hok0 : tree_ok match od_get n l with Some c => c | None => Node [] end).
    { destruct (od_get n l) as [c|] eqn:E.
      - apply (Hc n). apply od_get_Some_In. exact E.
      - apply tree_ok_eq. split; [constructor|intros ? ? []]. }
    split.
    + intros [c [Hin Hp]]. apply od_set_In in Hin; [|exact Hnd].
      destruct Hin as [[-> ->]|[ne Hin]]; [|left; exists c; tauto].
      apply IH in Hp; [|exact Hok0]. destruct Hp as [Hp|[r ->]].
      * destruct (od_get n l) as [c|] eqn:E.
        -- left. exists c. split; [apply od_get_Some_In; exact E|exact Hp].
        -- right. destruct p as [|? ?]; [exists path; reflexivity|]. destruct Hp as [c' [[] _]].
      * right. exists r. reflexivity.
    + intros [[c [Hin Hp]]|[r [= -> ->]]].
      * destruct (eqb_spec m n) as [->|ne].
        -- exists (insert_path path c). rewrite (od_In_get _ _ _ Hnd Hin).
           split; [apply od_set_In; [exact Hnd|left; tauto]|].
           apply IH; [eapply Hc; exact Hin|left; exact Hp].
        -- exists c. split; [apply od_set_In; [exact Hnd|right; tauto]|exact Hp].
      * eexists. split; [apply od_set_In; [exact Hnd|left; split; reflexivity]|].
        apply IH; [exact Hok0|right; exists r; reflexivity].
Qed.

Lemma taxonomy_spec (adds : list (string * string)) p :
  has_path p (taxonomy_dict (fold_left (fun t a => add_taxonomy (fst a) (snd a) t) adds (Node []))) <->
  p = [] \/ exists name s, In (name, s) adds /\ is_prefix p (split tax_sep s ++ [name]).
Proof.
  unfold taxonomy_dict. rewrite dicts_id.
  assert (Hg : forall t, tree_ok t ->
    (has_path p (fold_left (fun t a => add_taxonomy (fst a) (snd a) t) adds t) <->
     has_path p t \/ exists name s, In (name, s) adds /\ is_prefix p (split tax_sep s ++ [name]))).
  { induction adds as [|[name s] adds IH]; intros t Hok; cbn [fold_left fst snd].
    - split; [tauto|]. intros [Hp|[? [? [[] _]]]]. exact Hp.
    - rewrite IH by (apply insert_ok; exact Hok). unfold add_taxonomy. rewrite has_path_insert by exact Hok.
      split.
      + intros [[Hp|Hp]|[n' [s' [Hin Hp]]]]; [tauto| |].
        * right. exists name, s. split; [left; reflexivity|exact Hp].
        * right. exists n', s'. split; [right; exact Hin|exact Hp].
      + intros [Hp|[n' [s' [[[= <- <-]|Hin] Hp]]]]; [tauto|tauto|].
        right. exists n', s'. tauto. }
  rewrite Hg by (apply tree_ok_eq; split; [constructor|intros ? ? []]).
  split; (intros [Hp|Hp]; [left|right; exact Hp]).
  - destruct p as [|m p]; [reflexivity|]. destruct Hp as [c [[] _]].
  - subst p. exact I.
Qed.

Local Open Scope string_scope.
Lemma rev_string_app s acc : rev_string s acc = (rev_string s "" ++ acc)%string.
Proof.
  revert acc; induction s as [|c s IH]; intro acc; cbn; [reflexivity|].
  rewrite IH. rewrite (IH (String c "")). clear IH.
  induction (rev_string s "") as [|c' s' IH']; cbn; [reflexivity|]. rewrite IH'. reflexivity.
Qed.
Lemma string_app_assoc (a b c : string) : ((a ++ b) ++ c = a ++ (b ++ c))%string.
Proof. induction a as [|x a IH]; cbn; [reflexivity|]. rewrite IH. reflexivity. Qed.
Lemma string_app_nil_r (a : string) : (a ++ "" = a)%string.
Proof. induction a as [|x a IH]; cbn; [reflexivity|]. rewrite IH. reflexivity. Qed.

Lemma prefix_sep_no (c : Ascii.ascii) (s : string) :
  match s with EmptyString => True | String c' _ => c' <> Ascii.ascii_of_nat 58 end ->
  String.prefix tax_sep (String c s) = false.
Proof.
  unfold tax_sep. destruct s as [|c' s]; intro Hc; cbn [String.prefix].
  - destruct (Ascii.ascii_dec _ _); reflexivity.
  - match goal with |- context [Ascii.ascii_dec ?a c] => destruct (Ascii.ascii_dec a c) as [_|_] end; [|reflexivity].
    match goal with |- context [Ascii.ascii_dec ?a c'] => destruct (Ascii.ascii_dec a c') as [e|ne] end; [|reflexivity].
    exfalso. apply Hc. rewrite <- e. reflexivity.
Qed.

(** a category without colons is collected as one piece *)
Lemma split_piece u : no_colon u -> forall cur rest,
  (rest = "" \/ exists r, rest = (tax_sep ++ r)%string) ->
  split_go tax_sep 0 cur (u ++ rest) = split_go tax_sep 0 (rev_string u cur) rest.
Proof.
  induction u as [|c u IH]; intros Hu cur rest Hrest; [reflexivity|]. destruct Hu as [Hc Hu].
  cbn [append]. cbn [split_go].
  replace (String.prefix tax_sep (String c (u ++ rest))) with false.
  2:{ symmetry. apply prefix_sep_no. destruct u as [|c' u]; cbn [append].
      - destruct Hrest as [->|[r ->]]; [exact I|]. cbn. discriminate.
      - destruct Hu as [Hc' _]. exact Hc'. }
  rewrite IH by assumption. reflexivity.
Qed.

Lemma split_at_sep cur r :
  split_go tax_sep 0 cur (tax_sep ++ r) = rev_string cur "" :: split_go tax_sep 0 "" r.
Proof.
  change (tax_sep ++ r)%string with (String (Ascii.ascii_of_nat 32) (String (Ascii.ascii_of_nat 58) (String (Ascii.ascii_of_nat 58) (String (Ascii.ascii_of_nat 32) r)))).
  cbn [split_go]. replace (String.prefix tax_sep _) with true; [reflexivity|].
  symmetry. cbn. destruct r; reflexivity.
Qed.

Lemma rev_string_invol u : rev_string (rev_string u "") "" = u.
Proof.
  assert (Hg : forall a b, rev_string (rev_string a b) "" = (rev_string b "" ++ a)%string).
  { induction a as [|c a IH]; intro b; cbn; [rewrite string_app_nil_r; reflexivity|].
    rewrite IH. cbn. rewrite rev_string_app. rewrite string_app_assoc. reflexivity. }
  rewrite Hg. reflexivity.
Qed.

Lemma split_join cats : cats <> [] -> Forall no_colon cats ->
  split tax_sep (String.concat tax_sep cats) = cats.
Proof.
  unfold split. induction cats as [|u cats IH]; [congruence|]. intros _ Hall.
  inversion Hall as [|? ? Hu Hrest]; subst. destruct cats as [|v cats].
  - cbn [String.concat]. rewrite <- (string_app_nil_r u) at 1. rewrite split_piece by (auto).
    cbn [split_go]. rewrite rev_string_invol. reflexivity.
  - replace (String.concat tax_sep (u :: v :: cats)) with (u ++ (tax_sep ++ String.concat tax_sep (v :: cats)))%string by reflexivity.
    rewrite split_piece by eauto. rewrite split_at_sep, rev_string_invol. rewrite IH by (congruence || assumption). reflexivity.
Qed.
Close Scope string_scope.

(** ** Derived observables *)
Section DerivedProofs.
  Context {E V : Type}.
  Implicit Type w : world E V.

  Lemma check_inputs_spec first l w :
    check_inputs first l w = Ok tt ->
    forall n, In n l -> exists o o0 f, od_get n w = Some o /\ od_get first w = Some o0 /\
      o_args o = o_args o0 /\ o_pred o = Some f.
  Proof.
    induction l as [|m l IH]; cbn; intros Hc n Hin; [destruct Hin|].
    destruct (od_get m w) as [o|] eqn:Em; [|discriminate].
    destruct (od_get first w) as [o0|] eqn:Ef; [|discriminate].
    destruct (eqb_spec (o_args o) (o_args o0)) as [Ea|]; [|discriminate].
    destruct (o_pred o) as [f|] eqn:Ep; [|discriminate].
    destruct Hin as [<-|Hin]; [exists o, o0, f; auto|].
    destruct (IH Hc n Hin) as [o' [o0' [f' [H1 [H2 H3]]]]]. exists o', o0', f'. split; [exact H1|]. split; [exact H2|exact H3].
  Qed.
  Lemma check_inputs_ok first l w o0 : od_get first w = Some o0 ->
    (forall n, In n l -> exists o f, od_get n w = Some o /\ o_args o = o_args o0 /\ o_pred o = Some f) ->
    check_inputs first l w = Ok tt.
  Proof.
    intro Ef. induction l as [|m l IH]; cbn; intro Hall; [reflexivity|].
    destruct (Hall m) as [o [f [Em [Ea Ep]]]]; [left; reflexivity|].
    rewrite Em, Ef, Ep. rewrite Ea, eqb_refl. apply IH. intros n Hn. apply Hall. right. exact Hn.
  Qed.

  Lemma mapM_ext_in {X Y} (f g : X -> result Y) l : (forall x, In x l -> f x = g x) -> mapM f l = mapM g l.
  Proof.
    induction l as [|x l IH]; cbn; intro Hfg; [reflexivity|].
    rewrite (Hfg x) by (left; reflexivity). rewrite IH by (intros y Hy; apply Hfg; right; exact Hy). reflexivity.
  Qed.

  Lemma mapM_preds w l fs x : mapM (fun n => pred_function n w) l = Ok fs ->
    mapM (fun g => g x) fs = mapM (fun n => predict n w x) l.
  Proof.
    revert fs; induction l as [|n l IH]; cbn; intros fs Hm; [injection Hm as <-; reflexivity|].
    unfold predict at 1. destruct (pred_function n w) as [g|e]; [|discriminate]. cbn [bind] in *.
    destruct (mapM (fun n => pred_function n w) l) as [gs|e]; [|discriminate]. cbn [bind] in Hm.
    injection Hm as <-. cbn. rewrite (IH gs) by reflexivity. reflexivity.
  Qed.

  Lemma from_function_success name inputs f w first o0 :
    hd_error inputs = Some first -> od_get first w = Some o0 -> ~ In name inputs ->
    (forall n, In n inputs -> exists o g, od_get n w = Some o /\ o_args o = o_args o0 /\ o_pred o = Some g) ->
    exists w', from_function name inputs f w = (w', Ok tt) /\
      (forall x, predict name w' x = do vs <- mapM (fun n => predict n w x) inputs; f vs) /\
      (exists o, od_get name w' = Some o /\ o_args o = o_args o0) /\
      (forall n, n <> name -> od_get n w' = od_get n w).
  Proof.
    intros Hhd Hf Hni Hall. destruct inputs as [|i0 l]; [discriminate|]. cbn in Hhd. injection Hhd as ->.
    unfold from_function. rewrite (check_inputs_ok first _ w o0 Hf Hall). rewrite Hf.
    set (w1 := new_observable name (o_args o0) w).
    assert (Hpf : forall n, In n (first :: l) -> pred_function n w1 = pred_function n w).
    { intros n Hn. unfold pred_function, w1, new_observable. rewrite od_get_set_ne; [reflexivity|].
      intros ->. exact (Hni Hn). }
    rewrite (mapM_ext_in _ (fun n => pred_function n w) _ Hpf).
    destruct (mapM_total (fun n => pred_function n w) (first :: l)) as [fs Hfs].
    { intros n Hn. destruct (Hall n Hn) as [o [g [H1 [_ H2]]]]. exists g. unfold pred_function. rewrite H1, H2. reflexivity. }
    rewrite Hfs. unfold new_prediction.
    assert (H1 : od_get name w1 = Some (mkObs (o_args o0) None)) by (unfold w1, new_observable; apply od_get_set_eq).
    rewrite H1. cbn [o_args]. eexists. split; [reflexivity|]. split; [|split].
    - intro x. unfold predict at 1, pred_function. rewrite od_get_set_eq. cbn [o_pred bind].
      rewrite (mapM_preds w _ _ x Hfs). reflexivity.
    - eexists. split; [apply od_get_set_eq|reflexivity].
    - intros n Hn. rewrite od_get_set_ne by exact Hn. unfold w1, new_observable. apply od_get_set_ne. exact Hn.
  Qed.

  Lemma from_function_failure name inputs f w w' e :
    ~ In name inputs -> from_function name inputs f w = (w', Err e) -> w' = w.
  Proof.
    intros Hni. unfold from_function. destruct inputs as [|first l]; [intros [= <- _]; reflexivity|].
    destruct (check_inputs first (first :: l) w) as [[]|e'] eqn:Ec; [|intros [= <- _]; reflexivity].
    destruct (od_get first w) as [o0|] eqn:Ef; [|intros [= <- _]; reflexivity].
    intro Hr. exfalso. pose proof (check_inputs_spec _ _ _ Ec) as Hall.
    destruct (from_function_success name (first :: l) f w first o0) as [w'' [Hs _]]; auto.
    { intros n Hn. destruct (Hall n Hn) as [o [o0' [g [A1 [A2 [A3 A4]]]]]].
      exists o, g. rewrite Ef in A2. injection A2 as <-. auto. }
    unfold from_function in Hs. rewrite Ec, Ef in Hs. rewrite Hs in Hr. discriminate.
  Qed.

  Lemma from_function_rejects name inputs f w :
    (inputs = [] \/
     exists first n, hd_error inputs = Some first /\ In n inputs /\
       (od_get n w = None \/ exists o, od_get n w = Some o /\
          (o_pred o = None \/ forall o0, od_get first w = Some o0 -> o_args o <> o_args o0))) ->
    exists e, from_function name inputs f w = (w, Err e).
  Proof.
    intros [->|[first [n [Hhd [Hin Hbad]]]]]; [eexists; reflexivity|].
    destruct inputs as [|i0 l]; [discriminate|]. cbn in Hhd. injection Hhd as ->.
    unfold from_function. destruct (check_inputs first (first :: l) w) as [[]|e] eqn:Ec; [|eexists; reflexivity].
    exfalso. destruct (check_inputs_spec _ _ _ Ec n Hin) as [o [o0 [g [A1 [A2 [A3 A4]]]]]].
    destruct Hbad as [Hb|[o' [Hb [Hp|Ha]]]]; try congruence.
    apply (Ha o0 A2). congruence.
  Qed.

  Lemma ostep_other w o n : target o <> n -> od_get n (ostep w o) = od_get n w.
  Proof.
    intro Ht. assert (Hnt : n <> target o) by congruence. destruct o as [m a|m f|m i f|m]; cbn [ostep target] in *.
    - apply od_get_set_ne. exact Hnt.
    - unfold new_prediction. destruct (od_get m w); cbn [fst]; [apply od_get_set_ne; exact Hnt|reflexivity].
    - unfold from_function. destruct i as [|first l]; [reflexivity|].
      destruct (check_inputs first (first :: l) w); [|reflexivity].
      destruct (od_get first w) as [o0|]; [|reflexivity].
      destruct (mapM _ _).
      + unfold new_prediction. destruct (od_get m _); cbn [fst];
          unfold new_observable; rewrite ?od_get_set_ne by exact Hnt; reflexivity.
      + cbn [fst]. apply od_get_set_ne. exact Hnt.
    - apply od_get_pop_ne. exact Hnt.
  Qed.
  Lemma orun_other ops w n : Forall (fun o => target o <> n) ops -> od_get n (orun ops w) = od_get n w.
  Proof.
    revert w; induction ops as [|o ops IH]; intros w Hall; [reflexivity|].
    inversion Hall; subst. cbn [orun fold_left]. change (fold_left ostep ops (ostep w o)) with (orun ops (ostep w o)).
    rewrite IH by assumption. apply ostep_other. assumption.
  Qed.
  Lemma predict_orun ops w n x : Forall (fun o => target o <> n) ops ->
    predict n (orun ops w) x = predict n w x.
  Proof. intro Hall. unfold predict, pred_function. rewrite orun_other by exact Hall. reflexivity. Qed.
End DerivedProofs.

(** ** Measurements of an observable *)
Section MeasProofs.
  Context {A D : Type} `{EqA : Eqb A} `{EqD : Eqb D}.
  Notation K := (pkey (pyval A)).

  Lemma tuple_with_spec name (ks : list K) : ~ In (KTup []) ks ->
    exists b, tuple_with name ks = Ok b /\
      (b = true <-> exists l, In (KTup (VStr name :: l)) ks).
  Proof.
    induction ks as [|k ks IH]; cbn [tuple_with]; intro Hne.
    - exists false. split; [reflexivity|]. split; [discriminate|intros [l []]].
    - destruct IH as [b [E Hb]]; [intro Hi; apply Hne; right; exact Hi|].
      destruct k as [s|[|v l]].
      + exists b. split; [exact E|]. rewrite Hb. split; intros [l Hl]; exists l; [right; exact Hl|].
        destruct Hl as [Hl|Hl]; [discriminate|exact Hl].
      + exfalso. apply Hne. left. reflexivity.
      + destruct (eqb_spec v (VStr name)) as [->|ne].
        * exists true. split; [reflexivity|]. split; [|reflexivity]. intros _. exists l. left. reflexivity.
        * exists b. split; [exact E|]. rewrite Hb. split; intros [l' Hl]; exists l'; [right; exact Hl|].
          destruct Hl as [Hl|Hl]; [congruence|exact Hl].
  Qed.

  Lemma get_measurements_spec name (ms : od string (cset K D)) :
    Forall (fun nm => ~ In (KTup []) (all_parameters (snd nm))) ms ->
    exists hit : string * cset K D -> bool,
      get_measurements name ms = Ok (map fst (filter hit ms)) /\
      forall nm, In nm ms -> (hit nm = true <-> exists k, In k (all_parameters (snd nm)) /\ concerns name k).
  Proof.
    intro Hall.
    set (hit := fun nm : string * cset K D => memb (KStr name) (all_parameters (snd nm)) ||
        match tuple_with name (all_parameters (snd nm)) with Ok b => b | Err _ => false end).
    exists hit. induction ms as [|[mname m] ms IH]; [split; [reflexivity|intros ? []]|].
    inversion Hall as [|? ? Hm Hms]; subst. destruct (IH Hms) as [E Hspec]. clear IH. cbn [snd] in Hm.
    destruct (tuple_with_spec name (all_parameters m) Hm) as [b [Eb Hb]].
    assert (Hh : (if memb (KStr name) (all_parameters m) then Ok true else tuple_with name (all_parameters m))
                 = Ok (hit (mname, m))).
    { unfold hit. cbn [snd]. rewrite Eb. destruct (memb _ _); reflexivity. }
    split.
    - cbn [get_measurements]. rewrite Hh. cbn [bind]. rewrite E. cbn [bind filter].
      destruct (hit (mname, m)); reflexivity.
    - intros nm [<-|Hin]; [|apply Hspec; exact Hin]. unfold hit. cbn [snd]. rewrite Eb.
      rewrite Bool.orb_true_iff, memb_In, Hb. split.
      + intros [Hi|[l Hl]]; [exists (KStr name)|exists (KTup (VStr name :: l))]; split; auto; reflexivity.
      + intros [[s|[|[s|a] l]] [Hin Hc]]; cbn in Hc; try tauto; subst.
        * left. exact Hin.
        * right. exists l. exact Hin.
  Qed.
End MeasProofs.

(** ** Auxiliary quantities *)
Section AuxProofs.
  Context {E V : Type}.

  Lemma arun_snoc (ops : list (aop E V)) o : arun (ops ++ [o]) = astep (arun ops) o.
  Proof. unfold arun. rewrite fold_left_app. reflexivity. Qed.

  Lemma arun_quantities (ops : list (aop E V)) q : memb q (quantities (arun ops)) = declared (rev ops) q.
  Proof.
    induction ops as [|o ops IH] using rev_ind; [reflexivity|]. rewrite arun_snoc, rev_app_distr.
    cbn [rev app declared existsb]. change (existsb _ (rev ops)) with (declared (rev ops) q). rewrite <- IH.
    destruct o as [q'|n q' f|q' n]; cbn [astep].
    - unfold new_quantity. cbn [quantities]. destruct (memb_spec q' (quantities (arun ops))) as [Hi|Hn].
      + destruct (eqb_spec q q') as [->|ne]; cbn; [apply memb_In; exact Hi|reflexivity].
      + unfold memb. rewrite existsb_app. cbn. rewrite orb_false_r, orb_comm. reflexivity.
    - unfold new_implementation. cbn [quantities]. destruct (memb q' (quantities (arun ops))); reflexivity.
    - reflexivity.
  Qed.

  Lemma arun_config (ops : list (aop E V)) q : od_get q (config (arun ops)) = configured (rev ops) q.
  Proof.
    induction ops as [|o ops IH] using rev_ind; [reflexivity|]. rewrite arun_snoc, rev_app_distr.
    cbn [rev app configured]. destruct o as [q'|n q' f|q' n]; cbn [astep].
    - exact IH.
    - unfold new_implementation. cbn [quantities]. destruct (memb q' (quantities (arun ops))); exact IH.
    - unfold set_config. cbn [config]. rewrite od_get_set. destruct (eqb q q'); [reflexivity|exact IH].
  Qed.

  Lemma arun_impls (ops : list (aop E V)) n :
    option_map i_function (od_get n (impls (arun ops))) = implemented (rev ops) n.
  Proof.
    induction ops as [|o ops IH] using rev_ind; [reflexivity|]. rewrite arun_snoc, rev_app_distr.
    cbn [rev app implemented]. destruct o as [q'|n' q' f|q' n']; cbn [astep]; try exact IH.
    unfold new_implementation. cbn [quantities impls config].
    rewrite arun_quantities. destruct (declared (rev ops) q'); cbn [fst impls];
      rewrite !od_get_set; destruct (eqb n n'); cbn; try reflexivity; exact IH.
  Qed.

  Lemma aux_prediction_spec (ops : list (aop E V)) q x :
    aux_prediction q x (arun ops) =
    match configured (rev ops) q with
    | None => Err KeyError
    | Some n => match implemented (rev ops) n with
                | None => Err KeyError
                | Some None => Err AttributeError
                | Some (Some f) => f x
                end
    end.
  Proof.
    unfold aux_prediction, get_implementation. rewrite arun_config.
    destruct (configured (rev ops) q) as [n|]; [|reflexivity].
    rewrite <- arun_impls. destruct (od_get n (impls (arun ops))) as [i|]; cbn; [|reflexivity].
    destruct (i_function i); reflexivity.
  Qed.

  (** show_all *)
  Lemma show_loop_spec (l : od string (impl E V)) : forall acc,
    Forall (fun ni => i_quantity (snd ni) <> None) l ->
    exists d, show_loop acc l = Ok d /\
      forall q, od_get q d =
        match find (fun ni => eqb (i_quantity (snd ni)) (Some q)) (rev l) with
        | Some (n, i) => Some [(n, i_descr i)]
        | None => od_get q acc
        end.
  Proof.
    induction l as [|[n i] l IH]; intros acc Hall; cbn [show_loop]; [exists acc; split; reflexivity|].
    inversion Hall as [|? ? Hi Hl]; subst. cbn [snd] in Hi.
    destruct (i_quantity i) as [q0|] eqn:Eq; [|congruence].
    destruct (IH (od_set q0 [(n, i_descr i)] acc) Hl) as [d [Ed Hd]]. exists d. split; [exact Ed|].
    intro q. rewrite Hd. cbn [rev].
    assert (Hf : forall p (a : list (string * impl E V)) b, find p (a ++ b) = match find p a with Some y => Some y | None => find p b end).
    { intros p a b. induction a as [|y a IHa]; cbn; [reflexivity|]. destruct (p y); auto. }
    rewrite Hf. destruct (find _ (rev l)) as [[n' i']|]; [reflexivity|]. cbn [find snd]. rewrite Eq.
    rewrite od_get_set. destruct (eqb_spec q q0) as [->|ne].
    - rewrite eqb_refl. reflexivity.
    - assert (Hne : Some q0 <> Some q) by congruence. apply neq_eqb in Hne. rewrite Hne. reflexivity.
  Qed.
End AuxProofs.
