(** * Theorems about the names of distributions: C44, C91 *)
From Verif Require Import Base BaseLemmas Regex Parsing_Model DistNames_Model DistNames_Spec DistNames_Proofs.

Fixpoint class_size (c : class) : nat := match c with Class _ _ l => S (fold_right (fun d n => class_size d + n) 0 l) end.
Lemma size_in c l : In c l -> class_size c <= fold_right (fun d n => class_size d + n) 0 l.
Proof. induction l as [|d l IH]; intros []; cbn; [subst; lia|]. specialize (IH H). lia. Qed.

(** ** C44: the name of a distribution is that of its class, in small letters with underscores and
    without the word "distribution" *)
Theorem C44_name_of_class id subclasses ps : wf_pieces ps -> clean ps ->
  class_to_string (Class id (camel_name ps) subclasses) = underscore_name ps.
Proof. apply class_to_string_camel. Qed.
Print Assumptions C44_name_of_class.

Definition word (s : string) : piece := match lit s with c :: l => Word c l | [] => Acronym [] end.
Ltac letters := repeat constructor; try (vm_compute; discriminate); try (intros; congruence).
Example C44_name_of_class_instance :
  let ps := [word "Multivariate"; word "Distribution"; Acronym (lit "KDE"); word "Foo"]%string in
  wf_pieces ps /\ clean ps /\
  camel_name ps = lit "MultivariateDistributionKDEFoo" /\ underscore_name ps = lit "multivariate_kde_foo".
Proof.
  cbv zeta. split; [|split; [|split; vm_compute; reflexivity]].
  - cbn. letters.
  - intros p q rest [<-|[<-|[<-|[]]]] E; vm_compute in E; discriminate.
Qed.

(** The names lead back to the classes: for every collection of classes with different names, a
    dictionary naming a distribution selects exactly the class of that name and raises KeyError for any
    other text; string_to_class finds it by the name of the class and by its string name. *)
Theorem C44_back_to_class base (eval : str -> result obj) :
  NoDup (map class_to_string (get_subclasses base)) ->
  (forall c, In c (get_subclasses base) -> eval (class_name c) = Ok (OClass c) /\ eval (class_to_string c) = Err NameError) ->
  (forall c, In c (get_subclasses base) ->
     lookup_class base (class_to_string c) = Ok c /\
     string_to_class eval base (class_to_string c) = Ok (OClass c) /\
     string_to_class eval base (class_name c) = Ok (OClass c)) /\
  (forall s, (forall c, In c (get_subclasses base) -> class_to_string c <> s) ->
     lookup_class base s = Err KeyError /\ (eval s = Err NameError -> string_to_class eval base s = Err NameError)).
Proof.
  intros Hnd Heval. split.
  - intros c Hc. destruct (Heval c Hc) as (E1 & E2). unfold lookup_class, class_from_string, string_to_class. repeat split.
    + now rewrite (od_build_get class_to_string _ Hnd [] c Hc).
    + rewrite E2, (find_first class_to_string _ c Hnd Hc). reflexivity.
    + now rewrite E1.
  - intros s Hs. assert (Hn : ~ In s (map class_to_string (get_subclasses base))) by (rewrite in_map_iff; intros (c & E & Hc); now apply (Hs c)).
    unfold lookup_class, class_from_string, string_to_class. split.
    + now rewrite (od_build_none class_to_string).
    + intros ->. destruct (List.find (fun c => eqb (class_to_string c) s) (get_subclasses base)) as [c|] eqn:E; [|reflexivity].
      exfalso. apply find_some in E as (Hi & E). apply eqb_true in E. now apply (Hs c).
Qed.
Print Assumptions C44_back_to_class.

(** The classes of flavio satisfy this. *)
Lemma nodup_dec (l : list str) : dedup l = l -> NoDup l.
Proof. intros <-. apply dedup_NoDup. Qed.
Lemma map_eq_in {A B} (f g : A -> B) l : map f l = map g l -> forall x, In x l -> f x = g x.
Proof.
  induction l as [|y l IH]; intros E x Hx; [destruct Hx|]. cbn [map] in E. injection E as E1 E2.
  destruct Hx as [<-|Hx]; [exact E1|now apply IH].
Qed.
Lemma flavio_nodup : NoDup (map class_to_string (get_subclasses distributions)).
Proof. apply nodup_dec. vm_compute. reflexivity. Qed.
Lemma flavio_eval : map (fun c => (eval_identifier (class_name c), eval_identifier (class_to_string c))) (get_subclasses distributions) =
  map (fun c => (Ok (OClass c), Err NameError)) (get_subclasses distributions).
Proof. vm_compute. reflexivity. Qed.
Lemma flavio_evals c : In c (get_subclasses distributions) ->
  eval_identifier (class_name c) = Ok (OClass c) /\ eval_identifier (class_to_string c) = Err NameError.
Proof.
  intros Hx. pose proof (map_eq_in _ _ _ flavio_eval c Hx) as Ex. apply pair_equal_spec in Ex. exact Ex.
Qed.
Theorem C44_flavio_classes c :
  In c (get_subclasses distributions) <->
  (lookup_class distributions (class_to_string c) = Ok c /\
   string_to_class eval_identifier distributions (class_to_string c) = Ok (OClass c) /\
   string_to_class eval_identifier distributions (class_name c) = Ok (OClass c)).
Proof.
  split.
  - exact (proj1 (C44_back_to_class distributions eval_identifier flavio_nodup flavio_evals) c).
  - intros (H & _).
    destruct (C44_back_to_class distributions eval_identifier flavio_nodup flavio_evals) as (H1 & H2).
    destruct (in_dec (list_eq_dec N.eq_dec) (class_to_string c) (map class_to_string (get_subclasses distributions))) as [Hj|Hj].
    + apply in_map_iff in Hj as (c' & E & Hc'). destruct (H1 c' Hc') as (E1 & _). rewrite E in E1. rewrite E1 in H.
      injection H as ->. exact Hc'.
    + destruct (H2 (class_to_string c)) as (E & _); [|rewrite E in H; discriminate].
      intros c' Hc' E. apply Hj. rewrite <- E. now apply in_map.
Qed.
Print Assumptions C44_flavio_classes.
Example C44_flavio_classes_instance : length (get_subclasses distributions) = 20 /\
  lookup_class distributions (lit "gamma_positive") = Ok (Class 641 (lit "GammaDistributionPositive")
    [Class 741 (lit "GammaCountingProcess") [leaf 808 "GammaUpperLimit"]]) /\
  lookup_class distributions (lit "NormalDistribution") = Err KeyError.
Proof. vm_compute. auto. Qed.

(** "For every class" means every class derived from the base, directly or not. *)
Theorem C44_all_classes base c : In c (get_subclasses base) <-> descends base c.
Proof.
  split.
  - revert c. assert (H : forall n b, class_size b <= n -> forall c, In c (get_subclasses b) -> descends b c).
    { induction n as [|n IH]; intros [id name l] Hs c Hc; [cbn in Hs; lia|]. cbn [get_subclasses] in Hc. apply in_flat_map in Hc as (s & Hl & Hc).
      apply in_app_or in Hc as [Hc|[<-|[]]].
      - apply indirect with (c := s); [exact Hl|]. apply IH; [|exact Hc]. cbn in Hs. pose proof (size_in s l Hl). lia.
      - now apply direct. }
    intros c. now apply (H (class_size base)).
  - induction 1 as [id name l d Hd|id name l c d Hc Hd IH]; cbn [get_subclasses]; apply in_flat_map.
    + exists d. split; [exact Hd|]. apply in_or_app. right. now left.
    + exists c. split; [exact Hc|]. apply in_or_app. now left.
Qed.
Print Assumptions C44_all_classes.

(** ** C91 (fails): string_to_class gives a distribution or raises NameError.  It evaluates the text as
    a Python expression, so that it may return anything, e.g. for the name of a module or of its own
    argument; and the names of two classes may coincide. *)
Theorem C91_arbitrary_objects_refuted :
  string_to_class eval_identifier distributions (lit "re") = Ok OOther /\
  string_to_class eval_identifier distributions (lit "string") = Ok OOther /\
  string_to_class eval_identifier distributions (lit "ProbabilityDistribution") = Ok (OClass distributions).
Proof. vm_compute. auto. Qed.
Print Assumptions C91_arbitrary_objects_refuted.
Theorem C91_names_coincide_refuted : exists base c,
  In c (get_subclasses base) /\ lookup_class base (class_to_string c) <> Ok c /\
  forall d, In d (get_subclasses base) -> class_name d = class_name c -> d = c.
Proof.
  exists (Class 0 (lit "ProbabilityDistribution") [leaf 1 "FooDistribution"; leaf 2 "Foo"]), (leaf 1 "FooDistribution").
  split; [now left|]. split; [vm_compute; discriminate|].
  intros d [<-|[<-|[]]] E; [reflexivity|]. vm_compute in E. discriminate.
Qed.
Print Assumptions C91_names_coincide_refuted.
