(** * Minus signs typed as U+2212 *)
From Coq Require Import QArith Qcanon.
From Verif Require Import Base BaseLemmas Regex Parsing_Model Parsing_Spec Parsing_Proofs.
Close Scope Q_scope. Close Scope Qc_scope.

Definition ordinary (s : str) : Prop := Forall (fun c => c <> 8722%N) s.
Lemma ord_app a b : ordinary a -> ordinary b -> ordinary (a ++ b).
Proof. intros Ha Hb. apply Forall_app. now split. Qed.
Lemma ord_cons x a : x <> 8722%N -> ordinary a -> ordinary (x :: a).
Proof. now constructor. Qed.
Lemma ord_nil : ordinary []. Proof. constructor. Qed.
Lemma ord_digits s : digits s -> ordinary s.
Proof. intro H. eapply Forall_impl; [|exact H]. intros c Hc E. subst. discriminate. Qed.
Lemma ord_spaces s : spaces s -> ordinary s.
Proof. intro H. eapply Forall_impl; [|exact H]. intros c Hc E. subst. vm_compute in Hc. discriminate. Qed.
Lemma ord_dotted s : dotted s -> ordinary s.
Proof. intro H. eapply Forall_impl; [|exact H]. intros c [Hc|Hc] E; subst; [discriminate|vm_compute in Hc; discriminate]. Qed.
Lemma ord_number n : wf_number n -> ordinary (show_number n).
Proof.
  intros (_ & H1 & H2). apply ord_app; [now apply ord_digits|]. unfold frac_digits in H2. destruct (frac n) as [f|]; [|apply ord_nil].
  apply ord_cons; [discriminate|now apply ord_digits].
Qed.
Lemma ord_sign s : ordinary (show_sign s).
Proof. destruct s as [[|]|]; repeat constructor; discriminate. Qed.
Lemma ord_when b c : c <> 8722%N -> ordinary (when b c).
Proof. destruct b; repeat constructor; assumption. Qed.
Lemma ord_expo e : opt_wf wf_expo e -> ordinary (opt_show show_expo e).
Proof.
  destruct e as [e|]; [|intros _; apply ord_nil]. intros (Hc & _ & Hd). apply ord_cons; [destruct Hc as [<-|[<-|[]]]; discriminate|].
  apply ord_app; [apply ord_sign|now apply ord_digits].
Qed.
Ltac ords := repeat match goal with
  | |- ordinary (_ ++ _) => apply ord_app
  | |- ordinary (_ :: _) => apply ord_cons; [discriminate|]
  | |- ordinary [] => apply ord_nil
  | |- ordinary (when _ _) => apply ord_when; discriminate
  | |- ordinary (show_sign _) => apply ord_sign
  | |- ordinary (show_number _) => apply ord_number; assumption
  | |- ordinary (opt_show show_expo _) => apply ord_expo; assumption
  | H : spaces ?s |- ordinary ?s => apply ord_spaces; assumption
  | H : digits ?s |- ordinary ?s => apply ord_digits; assumption
  | H : dotted ?s |- ordinary ?s => apply ord_dotted; assumption
  end.
Lemma ord_power p : opt_wf wf_power p -> ordinary (opt_show show_power p).
Proof.
  destruct p as [p|]; [|intros _; apply ord_nil]. intros (Hp & _ & Hd). cbn [opt_show]. unfold show_power.
  ords.
  destruct Hp as [<-|[<-|[<-|[<-|[<-|[]]]]]]; repeat constructor; discriminate.
Qed.
Lemma ord_tail t : wf_tail t -> ordinary (show_tail t).
Proof.
  intros (H1 & H2 & H3 & _). unfold show_tail. ords. now apply ord_power.
Qed.
Lemma ord_start s : wf_start s -> ordinary (show_start s).
Proof.
  intros (H1 & H2 & H3 & H4 & _). unfold show_start. ords.
Qed.
Lemma ord_concat {A} (f : A -> str) (P : A -> Prop) l : (forall x, P x -> ordinary (f x)) -> Forall P l -> ordinary (concat (map f l)).
Proof. intros Hf H. induction H; cbn [map concat]; [apply ord_nil|]. apply ord_app; auto. Qed.
Lemma ord_bracket_string b : wf_bracket_string b -> ordinary (show_bracket_string b).
Proof.
  intros (H1 & _ & H2 & H3 & _). unfold show_bracket_string. ords; [now apply ord_start| |now apply ord_tail]. eapply ord_concat; [|exact H2].
  intros x (A & B & C & D). unfold show_bracket. ords.
Qed.
Lemma ord_pm_string p : wf_pm_string p -> ordinary (show_pm_string p).
Proof.
  intros (H1 & _ & H2 & H3 & _). unfold show_pm_string. ords; [now apply ord_start| |now apply ord_tail]. eapply ord_concat; [|exact H2].
  intros [mk a e b|a r b c l d]; cbn [wf_term show_term].
  - intros (A & B & C & D). ords. destruct A as [<-|[<-|[<-|[]]]]; repeat constructor; discriminate.
  - intros (A & B & C & D & E & F). ords.
Qed.
Lemma ord_limit l : wf_limit l -> ordinary (show_limit l).
Proof. intros (H1 & H2 & H3 & H4 & H5 & H6 & H7 & H8 & H9 & Ha & Hb). unfold show_limit. ords. Qed.
Lemma ord_factor f : wf_factor f -> ordinary (show_factor f).
Proof.
  intros (H1 & H2 & H3 & H4 & H5 & H6 & H7). unfold show_factor. ords. destruct H5 as [<-|[<-|[]]]; repeat constructor; discriminate.
Qed.
Lemma ord_range r : wf_range r -> ordinary (show_range r).
Proof. intros (H1 & H2 & H3 & H4 & H5 & H6 & H7 & H8 & H9 & Ha & Hb & Hc & _). unfold show_range. ords. now apply ord_tail. Qed.

Lemma typed_dash t s : ordinary t -> typed t s -> dash s = t.
Proof.
  intros Ho H. induction H as [|c d t s Hcd H IH]; [reflexivity|]. inversion Ho as [|? ? Hc Ho']; subst.
  unfold dash in *. cbn [map]. rewrite IH by assumption. f_equal. destruct Hcd as [->|(-> & ->)].
  - apply neq_eqb in Hc. now rewrite Hc.
  - reflexivity.
Qed.
Lemma dash_typed s : typed (dash s) s /\ ~ In 8722%N (dash s).
Proof.
  induction s as [|c s (IH1 & IH2)]; [split; [constructor|intros []]|]. unfold dash in *. cbn [map].
  destruct (eqb_spec c 8722%N) as [E|E]; split.
  - constructor; [right; now split|exact IH1].
  - intros [H|H]; [discriminate|contradiction].
  - constructor; [now left|exact IH1].
  - intros [H|H]; contradiction.
Qed.
