(** * Python regular expressions (the [re] features used in flavio)

    Not a model of a particular flavio file: the semantics of [re] that the models of
    _parse_errors.py and probability.py use.  Strings are lists of Unicode code points.
    [m] is the backtracking matcher (greedy repetition, ordered alternatives, first success);
    [M] is the declarative reading "this part of the string is matched, with these groups";
    [m_sound] and [m_complete] relate them. *)
From Coq Require Export NArith.
From Verif Require Import Base BaseLemmas.
Set Implicit Arguments.

Definition str := list N.

(** ASCII literals *)
Fixpoint lit (s : string) : str :=
  match s with EmptyString => [] | String a s' => Ascii.N_of_ascii a :: lit s' end.

#[global] Instance Eqb_N : Eqb N := { eqb := N.eqb; eqb_spec := N.eqb_spec }.

(** [\d], restricted to ASCII digits (Python also accepts other Unicode decimal digits). *)
Definition is_digit (c : N) : bool := (48 <=? c)%N && (c <=? 57)%N.
(** [\s] and [str.isspace] *)
Definition is_space (c : N) : bool :=
  memb c [9;10;11;12;13;28;29;30;31;32;133;160;5760;8192;8193;8194;8195;8196;8197;8198;
          8199;8200;8201;8202;8232;8233;8239;8287;12288]%N.

(** [Any] is [.]: everything but a newline *)
Inductive cls := Digit | Space | Set_ (l : list N) | Any.
Definition in_cls (k : cls) (c : N) : bool :=
  match k with Digit => is_digit c | Space => is_space c | Set_ l => memb c l | Any => negb (eqb c 10%N) end.

Inductive re :=
| Chr (k : cls)
| Eps
| Cat (a b : re)
| Or (a b : re)          (* a|b *)
| Star (a : re)          (* (?:a)* *)
| Grp (n : nat) (a : re) (* capturing group number n *)
| End.                   (* $ (without MULTILINE): at the end or before a final newline *)

Definition caps := od nat str.

(** the text between two positions, given by what remains after them *)
Definition between (s s' : str) : str := firstn (length s - length s') s.

Definition at_end (s : str) : bool := eqb s [] || eqb s [10%N].

(** [m r s c k]: match [r] at the start of [s], then go on with [k] *)
Fixpoint m {X : Type} (r : re) (s : str) (c : caps) (k : str -> caps -> option X) {struct r}
  : option X :=
  match r with
  | Chr p => match s with
             | x :: s' => if in_cls p x then k s' c else None
             | [] => None
             end
  | Eps => k s c
  | Cat a b => m a s c (fun s' c' => m b s' c' k)
  | Or a b => match m a s c k with Some x => Some x | None => m b s c k end
  | Star a =>
      (fix star (n : nat) (s : str) (c : caps) {struct n} : option X :=
         match n with
         | 0 => k s c
         | S n' =>
             match m a s c (fun s' c' => if length s' <? length s then star n' s' c' else None) with
             | Some x => Some x
             | None => k s c
             end
         end) (length s) s c
  | Grp n a => m a s c (fun s' c' => k s' (od_set n (between s s') c'))
  | End => if at_end s then k s c else None
  end.

(** [pattern.match(s)]: groups of the first match at the start *)
Definition re_match (r : re) (s : str) : option caps := m r s [] (fun _ c => Some c).
(** the same, also returning what remains *)
Definition re_match_rest (r : re) (s : str) : option (str * caps) :=
  m r s [] (fun s' c => Some (s', c)).

(** [re.findall]: non-overlapping matches from left to right (the patterns used never match
    the empty string) *)
Fixpoint findall_fuel (n : nat) (r : re) (s : str) : list caps :=
  match n with
  | 0 => []
  | S n' =>
      match s with
      | [] => []
      | _ :: s1 =>
          match re_match_rest r s with
          | Some (s', c) => if length s' <? length s then c :: findall_fuel n' r s'
                            else findall_fuel n' r s1
          | None => findall_fuel n' r s1
          end
      end
  end.
Definition findall (r : re) (s : str) : list caps := findall_fuel (length s) r s.

(** ** Declarative semantics *)
Inductive M : re -> str -> caps -> str -> caps -> Prop :=
| M_Chr p x s c : in_cls p x = true -> M (Chr p) (x :: s) c s c
| M_Eps s c : M Eps s c s c
| M_Cat a b s c s1 c1 s2 c2 : M a s c s1 c1 -> M b s1 c1 s2 c2 -> M (Cat a b) s c s2 c2
| M_OrL a b s c s' c' : M a s c s' c' -> M (Or a b) s c s' c'
| M_OrR a b s c s' c' : M b s c s' c' -> M (Or a b) s c s' c'
| M_Star0 a s c : M (Star a) s c s c
| M_StarS a s c s1 c1 s2 c2 : M a s c s1 c1 -> length s1 < length s ->
    M (Star a) s1 c1 s2 c2 -> M (Star a) s c s2 c2
| M_Grp n a s c s' c' : M a s c s' c' -> M (Grp n a) s c s' (od_set n (between s s') c')
| M_End s c : at_end s = true -> M End s c s c.

Section StarFix.
  Variables (X : Type) (a : re) (k : str -> caps -> option X).
  Fixpoint star_fix (n : nat) (s : str) (c : caps) {struct n} : option X :=
    match n with
    | 0 => k s c
    | S n' =>
        match m a s c (fun s' c' => if length s' <? length s then star_fix n' s' c' else None) with
        | Some x => Some x
        | None => k s c
        end
    end.
End StarFix.
Lemma m_Star {X} a s c (k : str -> caps -> option X) :
  m (Star a) s c k = star_fix a k (length s) s c.
Proof. reflexivity. Qed.

Theorem m_sound {X} r : forall s c (k : str -> caps -> option X) x,
  m r s c k = Some x -> exists s' c', M r s c s' c' /\ k s' c' = Some x.
Proof.
  induction r as [p| |a IHa b IHb|a IHa b IHb|a IHa|n a IHa|]; intros s c k x.
  - cbn [m]. destruct s as [|y s]; [discriminate|]. destruct (in_cls p y) eqn:E; [|discriminate].
    intro H. exists s, c. split; [now constructor|exact H].
  - cbn [m]. intro H. exists s, c. split; [constructor|exact H].
  - cbn [m]. intro H. apply IHa in H. destruct H as [s1 [c1 [H1 H2]]].
    apply IHb in H2. destruct H2 as [s2 [c2 [H2 H3]]]. exists s2, c2. split; [econstructor; eauto|exact H3].
  - cbn [m]. destruct (m a s c k) as [y|] eqn:E.
    + intros [= <-]. apply IHa in E. destruct E as [s' [c' [H1 H2]]]. exists s', c'. split; [now apply M_OrL|exact H2].
    + intro H. apply IHb in H. destruct H as [s' [c' [H1 H2]]]. exists s', c'. split; [now apply M_OrR|exact H2].
  - rewrite m_Star. generalize (length s) at 1 as n. intro n. revert s c.
    induction n as [|n IHn]; intros s c; cbn [star_fix].
    + intro H. exists s, c. split; [constructor|exact H].
    + match goal with |- context [m a s c ?K] => destruct (m a s c K) as [y|] eqn:E end.
      * intros [= <-]. apply IHa in E. destruct E as [s1 [c1 [H1 H2]]].
        destruct (Nat.ltb_spec (length s1) (length s)) as [Hl|Hl]; [|discriminate].
        apply IHn in H2. destruct H2 as [s2 [c2 [H2 H3]]]. exists s2, c2.
        split; [|exact H3]. exact (M_StarS H1 Hl H2).
      * intro H. exists s, c. split; [constructor|exact H].
  - cbn [m]. intro H. apply IHa in H. destruct H as [s' [c' [H1 H2]]]. eexists s', _. split; [|exact H2].
    now constructor.
  - cbn [m]. destruct (at_end s) eqn:E; [|discriminate]. intro H. exists s, c. split; [now constructor|exact H].
Qed.

Theorem m_complete {X} r : forall s c s' c' (k : str -> caps -> option X),
  M r s c s' c' -> k s' c' <> None -> m r s c k <> None.
Proof.
  induction r as [p| |a IHa b IHb|a IHa b IHb|a IHa|n a IHa|]; intros s c s' c' k HM Hk.
  - inversion HM; subst. cbn [m]. rewrite H0. exact Hk.
  - inversion HM; subst. exact Hk.
  - inversion HM; subst. cbn [m]. eapply IHa; [eassumption|]. eapply IHb; eassumption.
  - cbn [m]. destruct (m a s c k) eqn:E; [congruence|]. inversion HM; subst.
    + exfalso. revert E. eapply IHa; eassumption.
    + eapply IHb; eassumption.
  - rewrite m_Star. assert (Hn : length s <= length s) by lia. revert Hn.
    generalize (length s) at 2 3 as n. intro n. revert s c HM. induction n as [|n IHn]; intros s c HM Hn; cbn [star_fix].
    + inversion HM; subst; [exact Hk|lia].
    + match goal with |- context [m a s c ?K] => destruct (m a s c K) as [y|] eqn:E end; [congruence|].
      inversion HM; subst; [exact Hk|].
      exfalso. revert E. eapply IHa; [eassumption|].
      destruct (Nat.ltb_spec (length s1) (length s)) as [Hl|Hl]; [|lia]. apply IHn; [assumption|lia].
  - inversion HM; subst. cbn [m]. eapply IHa; [eassumption|]. exact Hk.
  - inversion HM; subst. cbn [m]. rewrite H. exact Hk.
Qed.

(** A match reads a prefix. *)
Lemma M_prefix r s c s' c' : M r s c s' c' -> exists t, s = t ++ s'.
Proof.
  induction 1 as [p x s c H|s c|a b s c s1 c1 s2 c2 H1 [t1 E1] H2 [t2 E2]| | |a s c
    |a s c s1 c1 s2 c2 H1 [t1 E1] Hl H2 [t2 E2]| |s c H].
  - now exists [x].
  - now exists [].
  - exists (t1 ++ t2). now rewrite <- app_assoc, <- E2.
  - assumption.
  - assumption.
  - now exists [].
  - exists (t1 ++ t2). now rewrite <- app_assoc, <- E2.
  - assumption.
  - now exists [].
Qed.
Lemma between_app t s : between (t ++ s) s = t.
Proof. unfold between. rewrite app_length. replace (length t + length s - length s) with (length t) by lia.
  rewrite firstn_app, Nat.sub_diag, firstn_all. cbn. apply app_nil_r. Qed.

(** Characters that every match must read. *)
Fixpoint needs (x : N) (r : re) : bool :=
  match r with
  | Chr (Set_ [y]) => eqb x y
  | Cat a b => needs x a || needs x b
  | Or a b => needs x a && needs x b
  | Grp _ a => needs x a
  | _ => false
  end.
Lemma needs_In x r s c s' c' : needs x r = true -> M r s c s' c' -> exists t, s = t ++ s' /\ In x t.
Proof.
  intros Hn HM. induction HM as [p y s c H|s c|a b s c s1 c1 s2 c2 H1 IH1 H2 IH2|a b s c s' c' H IH|a b s c s' c' H IH
    |a s c|a s c s1 c1 s2 c2 H1 IH1 Hl H2 IH2|n a s c s' c' H IH|s c H]; cbn [needs] in Hn; try discriminate.
  - destruct p as [| |[|z [|]]|]; try discriminate. apply eqb_true in Hn. subst z.
    cbn in H. rewrite orb_false_r in H. apply N.eqb_eq in H. subst y. exists [x]. split; [reflexivity|now left].
  - apply orb_true_iff in Hn. destruct Hn as [Hn|Hn].
    + destruct (IH1 Hn) as [t [-> Ht]]. destruct (M_prefix H2) as [t2 ->].
      exists (t ++ t2). rewrite <- app_assoc. split; [reflexivity|]. apply in_or_app; now left.
    + destruct (IH2 Hn) as [t [-> Ht]]. destruct (M_prefix H1) as [t2 ->].
      exists (t2 ++ t). rewrite <- app_assoc. split; [reflexivity|]. apply in_or_app; now right.
  - apply andb_true_iff in Hn. now apply IH.
  - apply andb_true_iff in Hn. now apply IH.
  - now apply IH.
Qed.
Lemma needs_none x r s : needs x r = true -> ~ In x s -> re_match r s = None.
Proof.
  intros Hn Hx. unfold re_match. match goal with |- ?t = None => destruct t as [y|] eqn:E end; [|reflexivity].
  apply m_sound in E. destruct E as [s' [c' [HM _]]]. destruct (needs_In _ Hn HM) as [t [-> Ht]].
  exfalso. apply Hx, in_or_app. now left.
Qed.

(** ** First success: [takes r t rest c c'] says that on [t ++ rest] the matcher tries first to
    read exactly [t]. *)
Definition takes (r : re) (t rest : str) (c c' : caps) : Prop :=
  forall X (k : str -> caps -> option X) x, k rest c' = Some x -> m r (t ++ rest) c k = Some x.
Definition nomatch (r : re) (s : str) : Prop :=
  forall X c (k : str -> caps -> option X), m r s c k = None.

Definition head_not (k : cls) (s : str) : Prop :=
  match s with [] => True | x :: _ => in_cls k x = false end.
Definition all_cls (k : cls) (s : str) : Prop := Forall (fun x => in_cls k x = true) s.

Lemma takes_Eps rest c : takes Eps [] rest c c.
Proof. intros X k x H. exact H. Qed.
Lemma takes_Chr p x rest c : in_cls p x = true -> takes (Chr p) [x] rest c c.
Proof. intros H X k y Hk. cbn [m app]. now rewrite H. Qed.
Lemma takes_Cat a b t1 t2 rest c c1 c2 :
  takes a t1 (t2 ++ rest) c c1 -> takes b t2 rest c1 c2 -> takes (Cat a b) (t1 ++ t2) rest c c2.
Proof.
  intros H1 H2 X k x Hk. cbn [m]. rewrite <- app_assoc. apply H1. now apply H2.
Qed.
Lemma takes_OrL a b t rest c c' : takes a t rest c c' -> takes (Or a b) t rest c c'.
Proof. intros H X k x Hk. cbn [m]. now rewrite (H X k x Hk). Qed.
Lemma takes_OrR a b t rest c c' : nomatch a (t ++ rest) -> takes b t rest c c' -> takes (Or a b) t rest c c'.
Proof. intros Hn H X k x Hk. cbn [m]. rewrite Hn. now apply H. Qed.
Lemma takes_Grp n a t rest c c' : takes a t rest c c' -> takes (Grp n a) t rest c (od_set n t c').
Proof. intros H X k x Hk. cbn [m]. apply H. now rewrite between_app. Qed.
Lemma takes_End_nil c : takes End [] [] c c.
Proof. intros X k x H. exact H. Qed.
Lemma takes_End_nl c : takes End [] [10%N] c c.
Proof. intros X k x H. exact H. Qed.

Lemma nomatch_Chr p s : head_not p s -> nomatch (Chr p) s.
Proof. intros H X c k. destruct s as [|x s]; [reflexivity|]. cbn in *. now rewrite H. Qed.
Lemma nomatch_Cat a b s : nomatch a s -> nomatch (Cat a b) s.
Proof. intros H X c k. cbn [m]. apply H. Qed.
Lemma nomatch_Or a b s : nomatch a s -> nomatch b s -> nomatch (Or a b) s.
Proof. intros Ha Hb X c k. cbn [m]. now rewrite Ha, Hb. Qed.
Lemma nomatch_Grp n a s : nomatch a s -> nomatch (Grp n a) s.
Proof. intros H X c k. cbn [m]. apply H. Qed.

Lemma takes_star_cls p t rest c : all_cls p t -> head_not p rest -> takes (Star (Chr p)) t rest c c.
Proof.
  intros Ht Hr X k x Hk. rewrite m_Star.
  assert (Hn : length (t ++ rest) <= length (t ++ rest)) by lia. revert Hn.
  generalize (length (t ++ rest)) at 2 3 as n. intro n. revert n. induction Ht as [|y t Hy Ht IH]; intros n Hn.
  - cbn [app] in *. destruct n as [|n]; cbn [star_fix]; [exact Hk|].
    destruct rest as [|z rest]; cbn [m]; [exact Hk|]. cbn in Hr. now rewrite Hr.
  - cbn [app] in Hn |- *. cbn [length] in Hn. destruct n as [|n]; [lia|]. cbn [star_fix m]. rewrite Hy.
    cbn [length]. replace (length (t ++ rest) <? S (length (t ++ rest))) with true by (symmetry; apply Nat.ltb_lt; lia).
    rewrite IH by lia. reflexivity.
Qed.

(** reading one item after the other *)
Fixpoint chain (a : re) (rest : str) (c c' : caps) (ts : list str) : Prop :=
  match ts with
  | [] => c = c'
  | t :: ts' => t <> [] /\ exists c1, takes a t (concat ts' ++ rest) c c1 /\ chain a rest c1 c' ts'
  end.
Lemma takes_Star a rest c c' ts : nomatch a rest -> chain a rest c c' ts -> takes (Star a) (concat ts) rest c c'.
Proof.
  intros Hn H X k x Hk. rewrite m_Star.
  assert (Hl : length (concat ts ++ rest) <= length (concat ts ++ rest)) by lia. revert Hl.
  generalize (length (concat ts ++ rest)) at 2 3 as n. intro n. revert n c H.
  induction ts as [|t ts IH]; intros n c1 H Hl.
  - cbn [concat app chain] in *. subst c1. destruct n as [|n]; cbn [star_fix]; [exact Hk|]. now rewrite Hn.
  - destruct H as [Hne [c2 [H1 H2]]]. cbn [concat] in *. rewrite <- app_assoc in *.
    assert (Hlt : length t > 0) by (destruct t; cbn; [congruence|lia]). rewrite app_length in Hl.
    destruct n as [|n]; [lia|]. cbn [star_fix].
    erewrite H1; [reflexivity|]. cbn beta.
    rewrite (app_length t). replace (length (concat ts ++ rest) <? length t + length (concat ts ++ rest)) with true
      by (symmetry; apply Nat.ltb_lt; lia).
    apply IH; [exact H2|lia].
Qed.

Lemma takes_match r t rest c' : takes r t rest [] c' -> re_match r (t ++ rest) = Some c'.
Proof. intro H. unfold re_match. now apply H. Qed.
Lemma takes_match_rest r t rest c' : takes r t rest [] c' -> re_match_rest r (t ++ rest) = Some (rest, c').
Proof. intro H. unfold re_match_rest. now apply H. Qed.

(** ** findall *)
Lemma findall_fuel_more r : forall n s n', length s <= n -> length s <= n' -> findall_fuel n r s = findall_fuel n' r s.
Proof.
  induction n as [|n IH]; intros s n' H H'.
  - destruct s; cbn in *; [|lia]. destruct n'; reflexivity.
  - destruct s as [|x s]; [destruct n'; reflexivity|]. destruct n' as [|n']; [cbn in H'; lia|].
    cbn [findall_fuel]. cbn [length] in H, H'. destruct (re_match_rest r (x :: s)) as [[s' c]|] eqn:E.
    + destruct (Nat.ltb_spec (length s') (length (x :: s))) as [Hl|Hl].
      * cbn [length] in Hl. f_equal. apply IH; lia.
      * apply IH; lia.
    + apply IH; lia.
Qed.
Lemma findall_hit r t rest c : takes r t rest [] c -> t <> [] -> findall r (t ++ rest) = c :: findall r rest.
Proof.
  intros H Hne. unfold findall. rewrite app_length. destruct t as [|x t]; [congruence|].
  change ((x :: t) ++ rest) with (x :: (t ++ rest)) in *. cbn [length Nat.add findall_fuel].
  assert (E : re_match_rest r (x :: t ++ rest) = Some (rest, c)) by (apply (takes_match_rest H)).
  rewrite E. cbn [length]. rewrite app_length.
  replace (length rest <? S (length t + length rest)) with true by (symmetry; apply Nat.ltb_lt; lia).
  f_equal. apply findall_fuel_more; lia.
Qed.
Lemma findall_skip r x rest : re_match_rest r (x :: rest) = None -> findall r (x :: rest) = findall r rest.
Proof. intros H. unfold findall. cbn [length findall_fuel]. now rewrite H. Qed.
Lemma findall_skips r t rest :
  (forall a b x, t = a ++ x :: b -> re_match_rest r (x :: b ++ rest) = None) ->
  findall r (t ++ rest) = findall r rest.
Proof.
  induction t as [|x t IH]; intro H; [reflexivity|]. cbn [app].
  rewrite findall_skip; [|apply (H [] t x eq_refl)]. apply IH. intros a b y E. apply (H (x :: a) b y). now rewrite E.
Qed.
Lemma findall_nil r : findall r [] = [].
Proof. reflexivity. Qed.
Lemma nomatch_rest r s : nomatch r s -> re_match_rest r s = None.
Proof. intro H. apply H. Qed.
