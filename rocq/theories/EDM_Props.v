(** * Theorems about electric dipole moments (C172 - C174) *)
From Coq Require Import Reals List String Lra Lia.
From Coquelicot Require Import Coquelicot.
From Verif Require Import Base Basics_Model Decays_Model LFV_Model LFV_Spec.
Import ListNotations.
Local Open Scope R_scope.

(** specification: the mass of each fermion; dipole moments of fermions normalised to the mass of the same fermion *)
Definition mass_of (d : edmpar) (f : string) (scale : R) (nf : nat) : option R :=
  if String.eqb f "e" then Some (e_mlep d Le) else if String.eqb f "mu" then Some (e_mlep d Lmu) else if String.eqb f "tau" then Some (e_mlep d Ltau)
  else if String.eqb f "u" then Some (e_mu d scale nf) else if String.eqb f "d" then Some (e_md d scale nf) else if String.eqb f "s" then Some (e_ms d scale nf) else None.
Definition effs : list (string * nat) := [("WET", 5); ("WET-4", 4); ("WET-3", 3); ("WET-2", 2)]%string%nat.
Definition fermions : list string := ["e"; "mu"; "tau"; "u"; "d"; "s"]%string.
(** the moment in terms of the imaginary part of the coefficient *)
Definition moment (d : edmpar) (charge m im : R) : R := e_GF d / sqrt 2 * charge / (2 * PI ^ 2) * m * im.

(** C172: the moment of a quark should be proportional to its own mass; the code uses the mass of the d quark for the u quark and vice versa *)
Theorem C172_quark_mass_refuted : ~ (forall d w f scale eft nf m, In f fermions -> In (eft, nf) effs -> mass_of d f scale nf = Some m ->
  edm_f d w f scale eft = Ok (moment d (sqrt (4 * PI * e_alpha d scale nf)) m (snd (w ("C7_" ++ f ++ f)%string)))).
Proof.
  pose proof PI_RGT_0 as hp. intro H. set (d := Edmpar 1 (fun _ => 1) (fun _ _ => / (4 * PI)) (fun _ _ => 2) (fun _ _ => 5) (fun _ _ => 1) 0 0 0 0 0 0 0 1 1 1 (fun _ => 0) (fun _ => 0)).
  pose proof (H d (fun _ => Ci) "u"%string 2 "WET-3"%string 3%nat 2 ltac:(cbn; tauto) ltac:(cbn; tauto) eq_refl) as E.
  unfold edm_f, get_m, eft_nf_out, moment in E. cbn [String.eqb Ascii.eqb Bool.eqb bind] in E. unfold d in E. cbn [e_alpha e_GF e_md] in E.
  assert (E0 : 4 * PI * / (4 * PI) = 1) by (field; lra). rewrite E0, sqrt_1 in E. injection E as E. unfold Ci in E. cbn [snd] in E. assert (0 < sqrt 2) by (apply sqrt_lt_R0; lra).
  assert (P : 0 < / sqrt 2 * / (PI * PI)) by (apply Rmult_lt_0_compat; apply Rinv_0_lt_compat; [lra | apply Rmult_lt_0_compat; lra]).
  match type of E with ?x = ?y => assert (E3 : x = 5 / 2 * (/ sqrt 2 * / (PI * PI))) by (field; split; lra); assert (E4 : y = / sqrt 2 * / (PI * PI)) by (field; split; lra) end. lra.
Qed.
Print Assumptions C172_quark_mass_refuted.
(** what holds: leptons and the strange quark have their own mass; the u and d quarks have each other's *)
Theorem C172_quark_mass_partial : forall d w scale eft nf, In (eft, nf) effs ->
  let q := sqrt (4 * PI * e_alpha d scale nf) in
  (forall f m, In f ["e"; "mu"; "tau"; "s"]%string -> mass_of d f scale nf = Some m ->
      edm_f d w f scale eft = Ok (moment d q m (snd (w ("C7_" ++ f ++ f)%string))) /\ cedm_f d w f scale eft = Ok (moment d 1 m (snd (w ("C8_" ++ f ++ f)%string))))
  /\ edm_f d w "u" scale eft = Ok (moment d q (e_md d scale nf) (snd (w "C7_uu"%string))) /\ cedm_f d w "u" scale eft = Ok (moment d 1 (e_md d scale nf) (snd (w "C8_uu"%string)))
  /\ edm_f d w "d" scale eft = Ok (moment d q (e_mu d scale nf) (snd (w "C7_dd"%string))) /\ cedm_f d w "d" scale eft = Ok (moment d 1 (e_mu d scale nf) (snd (w "C8_dd"%string))).
Proof.
  intros d w scale eft nf He q. pose proof PI_RGT_0 as hp. assert (S2 : 0 < sqrt 2) by (apply sqrt_lt_R0; lra).
  assert (X : forall ch m im, 2 * (4 * e_GF d / sqrt 2 * ch / (16 * PI ^ 2) * m) * im = moment d ch m im) by (intros; unfold moment; field; split; lra).
  assert (Y : forall m im, 2 * (4 * e_GF d / sqrt 2 / (16 * PI ^ 2) * m) * im = moment d 1 m im) by (intros; unfold moment; field; split; lra).
  assert (N : eft_nf_out eft = Ok nf). { unfold effs in He. cbn [In] in He. destruct He as [He | [He | [He | [He | []]]]]; injection He as <- <-; reflexivity. }
  split.
  - intros f m Hf Hm. cbn [In] in Hf. destruct Hf as [<- | [<- | [<- | [<- | []]]]]; unfold mass_of in Hm; cbn [String.eqb Ascii.eqb Bool.eqb] in Hm; injection Hm as <-;
      unfold edm_f, cedm_f, get_m; rewrite ?N; cbn [String.eqb Ascii.eqb Bool.eqb bind]; rewrite ?N; cbn [bind]; fold q; rewrite X, Y; split; reflexivity.
  - unfold edm_f, cedm_f, get_m; rewrite ?N; cbn [String.eqb Ascii.eqb Bool.eqb bind]; rewrite ?N; cbn [bind]; fold q; rewrite !X, !Y. auto.
Qed.
Print Assumptions C172_quark_mass_partial.

(** C173: electric dipole moments violate CP *)
Definition real_wc (w : string -> C) : Prop := forall n, n <> "CGtilde"%string -> snd (w n) = 0.
Definition swc (t : R) (w : string -> C) : string -> C := fun n => (RtoC t * w n)%C.
Definition addwc (w w' : string -> C) : string -> C := fun n => (w n + w' n)%C.
Theorem C173_fermions : forall d w f scale eft,
  (In f fermions -> (exists nf, In (eft, nf) effs) ->
     exists v c, edm_f d w f scale eft = Ok v /\ cedm_f d w f scale eft = Ok c /\ (real_wc w -> v = 0 /\ c = 0)
     /\ (forall w', (forall n, snd (w' n) = snd (w n)) -> edm_f d w' f scale eft = Ok v /\ cedm_f d w' f scale eft = Ok c)
     /\ (forall w' v' c', edm_f d w' f scale eft = Ok v' -> cedm_f d w' f scale eft = Ok c' ->
            edm_f d (addwc w w') f scale eft = Ok (v + v') /\ cedm_f d (addwc w w') f scale eft = Ok (c + c'))
     /\ edm_f d (fun n => Cconj (w n)) f scale eft = Ok (- v) /\ cedm_f d (fun n => Cconj (w n)) f scale eft = Ok (- c))
  /\ (~ In f fermions -> (exists nf, In (eft, nf) effs) -> edm_f d w f scale eft = Err ValueError /\ cedm_f d w f scale eft = Err ValueError)
  /\ (~ (exists nf, In (eft, nf) effs) -> edm_f d w f scale eft = Err KeyError).
Proof.
  intros d w f scale eft.
  assert (NF : (exists nf, In (eft, nf) effs) -> exists nf, eft_nf_out eft = Ok nf).
  { intros (nf & He). exists nf. unfold effs in He. cbn [In] in He. destruct He as [He | [He | [He | [He | []]]]]; injection He as <- <-; reflexivity. }
  assert (NE : ~ (exists nf, In (eft, nf) effs) -> eft_nf_out eft = Err KeyError).
  { intro H. unfold eft_nf_out. destruct (String.eqb eft "WET") eqn:E1; [apply String.eqb_eq in E1; subst; exfalso; apply H; exists 5%nat; cbn; tauto|].
    destruct (String.eqb eft "WET-4") eqn:E2; [apply String.eqb_eq in E2; subst; exfalso; apply H; exists 4%nat; cbn; tauto|].
    destruct (String.eqb eft "WET-3") eqn:E3; [apply String.eqb_eq in E3; subst; exfalso; apply H; exists 3%nat; cbn; tauto|].
    destruct (String.eqb eft "WET-2") eqn:E4; [apply String.eqb_eq in E4; subst; exfalso; apply H; exists 2%nat; cbn; tauto|]. reflexivity. }
  refine (conj _ (conj _ _)).
  - intros Hf He. destruct (NF He) as (nf & N).
    assert (M : exists m, get_m d f scale eft = Ok m) by (cbn [In fermions] in Hf; destruct Hf as [<- | [<- | [<- | [<- | [<- | [<- | []]]]]]]; unfold get_m; rewrite ?N; cbn [String.eqb Ascii.eqb Bool.eqb bind]; eauto).
    destruct M as (m & M). unfold edm_f, cedm_f. rewrite M, N. cbn [bind]. do 2 eexists. split; [reflexivity|]. split; [reflexivity|].
    assert (Z : real_wc w -> snd (w ("C7_" ++ f ++ f)%string) = 0 /\ snd (w ("C8_" ++ f ++ f)%string) = 0) by (intro R0; split; apply R0; intro X; cbn in X; discriminate).
    refine (conj _ (conj _ (conj _ (conj _ _)))).
    + intro R0. destruct (Z R0) as (-> & ->). split; ring.
    + intros w' Hw. rewrite !Hw. auto.
    + intros w' v' c' E1 E2. unfold addwc. set (n7 := ("C7_" ++ f ++ f)%string) in *. set (n8 := ("C8_" ++ f ++ f)%string) in *. clearbody n7 n8.
      injection E1 as E1. injection E2 as E2. rewrite <- E1, <- E2. split; f_equal; unfold Cplus; cbn [snd pow]; ring.
    + f_equal. unfold Cconj. cbn [snd]. ring.
    + f_equal. unfold Cconj. cbn [snd]. ring.
  - intros Hf He. destruct (NF He) as (nf & N). assert (M : get_m d f scale eft = Err ValueError).
    { unfold get_m. rewrite N. cbn [bind]. 
      repeat match goal with |- context [String.eqb f ?x] => let E := fresh in destruct (String.eqb f x) eqn:E; [exfalso; apply String.eqb_eq in E; subst f; apply Hf; cbn; tauto|] end. reflexivity. }
    unfold edm_f, cedm_f. rewrite M. auto.
  - intros He. unfold edm_f, get_m. rewrite (NE He). destruct (String.eqb f "e"); [reflexivity|]. destruct (String.eqb f "mu"); [reflexivity|]. destruct (String.eqb f "tau"); reflexivity.
Qed.
Print Assumptions C173_fermions.
(** the neutron: zero without CP violation, never negative, proportional to the size of the coefficients, and independent of the overall sign *)
Theorem C173_neutron : forall d w, exists v, nedm d w = Ok v /\ 0 <= v
  /\ (real_wc w -> w "CGtilde"%string = RtoC 0 -> v = 0) /\ (forall t, nedm d (swc t w) = Ok (Rabs t * v))
  /\ (forall w', (forall n, n <> "CGtilde"%string -> snd (w' n) = snd (w n)) -> w' "CGtilde"%string = w "CGtilde"%string -> nedm d w' = Ok v).
Proof.
  intros d w. unfold nedm, edm_f, cedm_f, get_m, eft_nf_out. cbn [String.eqb Ascii.eqb Bool.eqb bind String.append]. eexists. split; [reflexivity|]. split; [apply Rabs_pos|].
  refine (conj _ (conj _ _)).
  - intros R0 G0. rewrite G0. rewrite !(R0 _) by discriminate. cbn [fst RtoC]. replace (_ + _) with 0; [apply Rabs_R0 | ring].
  - intro t. f_equal. rewrite <- Rabs_mult. f_equal. unfold swc, Cmult, RtoC. cbn [fst snd]. ring.
  - intros w' Hw Hg. rewrite Hg. rewrite !(Hw _) by discriminate. reflexivity.
Qed.
Print Assumptions C173_neutron.
(** electron-nucleus coupling: per nucleon, the sum over protons and neutrons of their coupling to u and d quarks, the neutron being a proton with u and d exchanged;
    the same charges as in mu-e conversion. Paramagnetic systems: linear, zero without CP violation, KeyError for unknown names *)
Theorem C173_nucleus : forall d w scale Z N, Z + N <> 0 ->
  let pc := proton_charges (e_sigpi d) (e_gSumd d) (e_sigs d) (e_mu d scale 3) (e_md d scale 3) (e_ms d scale 3) in
  let cu := snd (w "CSRR_eeuu"%string) + snd (w "CSRL_eeuu"%string) in let cd := snd (w "CSRR_eedd"%string) + snd (w "CSRL_eedd"%string) in
  let proton := (gSp pc + gSm pc) / 2 * cu + (gSp pc - gSm pc) / 2 * cd in let neutron := (gSp pc - gSm pc) / 2 * cu + (gSp pc + gSm pc) / 2 * cd in
  CSc d w scale Z N = - 2 * (Z * proton + N * neutron) / (Z + N)
  /\ gSp pc * ((e_mu d scale 3 + e_md d scale 3) / 2) = (if Req_EM_T (e_md d scale 3 + e_mu d scale 3) 0 then 0 else e_sigpi d)
  /\ gSs pc * e_ms d scale 3 = (if Req_EM_T (e_ms d scale 3) 0 then 0 else e_sigs d) /\ gSm pc = e_gSumd d
  /\ (real_wc w -> CSc d w scale Z N = 0).
Proof.
  intros d w scale Z N H pc cu cd proton neutron. assert (E : CSc d w scale Z N = - 2 * (Z * proton + N * neutron) / (Z + N)).
  { unfold CSc. cbv zeta. fold pc. unfold proton, neutron, cu, cd. field. exact H. }
  split; [exact E|]. split; [|split; [|split; [reflexivity|]]].
  - unfold pc, proton_charges. cbn [gSp]. rewrite (Rplus_comm (e_mu d scale 3)). destruct (Req_EM_T _ 0) as [z | z]; [rewrite z; unfold Rdiv; ring | field; exact z].
  - unfold pc, proton_charges. cbn [gSs]. destruct (Req_EM_T _ 0) as [z | z]; [rewrite z; ring | field; exact z].
  - intro R0. rewrite E. unfold proton, neutron, cu, cd. rewrite !R0 by discriminate. unfold Rdiv. ring.
Qed.
Print Assumptions C173_nucleus.
Definition systems : list string := ["Tl"; "YbF"; "HfF"; "ThO"]%string.
Theorem C173_paramagnetic : forall d w x,
  (In x systems -> exists v, para d w x = Ok v /\ (real_wc w -> v = 0)
     /\ (forall w' v', para d w' x = Ok v' -> para d (addwc w w') x = Ok (v + v')) /\ para d (fun n => Cconj (w n)) x = Ok (- v))
  /\ (~ In x systems -> para d w x = Err KeyError).
Proof.
  intros d w x. split.
  - intro Hx. assert (Zx : exists z n, ZN x = Ok (z, n)) by (cbn [In systems] in Hx; destruct Hx as [<- | [<- | [<- | [<- | []]]]]; unfold ZN; cbn; eauto).
    destruct Zx as (z & n & Ez). unfold para. rewrite Ez. unfold edm_f, get_m, eft_nf_out. cbn [String.eqb Ascii.eqb Bool.eqb bind String.append fst snd]. eexists. split; [reflexivity|].
    refine (conj _ (conj _ _)).
    + intro R0. unfold CSc. cbv zeta. rewrite !R0 by discriminate. ring.
    + intros w' v' E. injection E as <-. unfold addwc, CSc, Cplus. cbv zeta. cbn [snd pow]. f_equal. ring.
    + unfold CSc, Cconj. cbv zeta. cbn [snd]. f_equal. ring.
  - intro Hx. unfold para, ZN. repeat match goal with |- context [String.eqb x ?y] => let E := fresh in destruct (String.eqb x y) eqn:E; [exfalso; apply String.eqb_eq in E; subst x; apply Hx; cbn; tauto|] end. reflexivity.
Qed.
Print Assumptions C173_paramagnetic.

(** C174: the electron-nucleus contribution should be that of the heavy nucleus (proton and neutron numbers: Tl 81, 124; Yb 70, 104; Hf 72, 108; Th 90, 142) *)
Definition heavy : list (string * (R * R)) := [("Tl"%string, (81, 124)); ("YbF"%string, (70, 104)); ("HfF"%string, (72, 108)); ("ThO"%string, (90, 142))].
Theorem C174_nuclei_refuted : forall x zn, In (x, zn) heavy ->
  ~ (forall d w, exists de, edm_f d w "e" 2 "WET-3" = Ok de /\ para d w x = Ok (e_ade d x * de + e_aCS d x * CSc d w 2 (fst zn) (snd zn))).
Proof.
  intros x zn Hx H. set (d := Edmpar 1 (fun _ => 1) (fun _ _ => 1) (fun _ _ => 1) (fun _ _ => 1) (fun _ _ => 1) 0 0 0 0 0 0 0 0 1 0 (fun _ => 0) (fun _ => 1)).
  destruct (H d (fun n => if String.eqb n "CSRR_eeuu" then Ci else RtoC 0)) as (de & _ & E). clear H.
  unfold heavy in Hx. cbn [In] in Hx. destruct Hx as [Hx | [Hx | [Hx | [Hx | []]]]]; injection Hx as <- <-; unfold para, ZN, edm_f, get_m, eft_nf_out in E;
    cbn [String.eqb Ascii.eqb Bool.eqb bind fst snd String.append] in E; injection E as E; unfold d, CSc, proton_charges in E; cbv zeta in E;
    cbn [e_ade e_aCS e_sigpi e_gSumd e_sigs e_mu e_md e_ms gSp gSm String.eqb Ascii.eqb Bool.eqb snd Ci RtoC fst] in E; unfold Ci in E; cbn [snd] in E; lra.
Qed.
Print Assumptions C174_nuclei_refuted.
(** what holds: the coupling with the numbers 3 and 4 for thallium (the ratio of 3 Li 7), and with equal numbers (no isovector part) for the molecules *)
Theorem C174_nuclei_partial : forall d w, exists de, edm_f d w "e" 2 "WET-3" = Ok de
  /\ para d w "Tl" = Ok (e_ade d "Tl" * de + e_aCS d "Tl" * CSc d w 2 3 4)
  /\ forall x, In x ["YbF"; "HfF"; "ThO"]%string -> para d w x = Ok (e_ade d x * de
       + e_aCS d x * (- (e_sigpi d / ((e_md d 2 3 + e_mu d 2 3) / 2)) * (snd (w "CSRR_eeuu"%string) + snd (w "CSRL_eeuu"%string) + snd (w "CSRR_eedd"%string) + snd (w "CSRL_eedd"%string)))).
Proof.
  intros d w. unfold para, ZN, edm_f, get_m, eft_nf_out. cbn [String.eqb Ascii.eqb Bool.eqb bind fst snd String.append]. eexists. split; [reflexivity|]. split; [reflexivity|].
  intros x Hx. cbn [In] in Hx. destruct Hx as [<- | [<- | [<- | []]]]; cbn [String.eqb Ascii.eqb Bool.eqb bind fst snd]; f_equal; f_equal; f_equal; unfold CSc, proton_charges; cbv zeta; cbn [gSp gSm];
    replace ((1 - 1) / (1 + 1)) with 0 by field; ring.
Qed.
Print Assumptions C174_nuclei_partial.
Example C173_meets : real_wc (fun _ => RtoC 3) /\ In "e"%string fermions /\ In ("WET-3"%string, 3%nat) effs.
Proof. refine (conj _ (conj _ _)); [intros n _; reflexivity | cbn; tauto | cbn; tauto]. Qed.
