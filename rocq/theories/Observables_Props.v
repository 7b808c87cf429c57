(** * Properties C10-C16, C63-C66: observables, taxonomy, derived observables, implementations *)
From Verif Require Import Base Constraints_Model Constraints_Spec Constraints_Proofs ConstraintsIO_Model
  Observables_Model Observables_Spec Observables_Proofs.

(** C10: tuple -> dict -> tuple/list is lossless and the dictionary is the expected one, for
    every observable whose argument names are distinct and do not include 'name'. *)
Theorem C10_tuple_to_dict_and_back :
  forall (A : Type) (reg : od string (option (list string))) n args (vals : list (pyval A)),
    od_get n reg = Some (Some args) -> NoDup args -> ~ In "name"%string args -> length vals = length args ->
    exists d, argument_format reg (ISeq (VStr n :: vals)) FDict = Ok (ODict d) /\
      argument_format reg (IDict d) FTuple = Ok (OTuple (VStr n :: vals)) /\
      argument_format reg (IDict d) FList = Ok (OList (VStr n :: vals)) /\
      od_keys d = "name"%string :: args /\ od_get "name"%string d = Some (VStr n) /\
      (forall i a v, nth_error args i = Some a -> nth_error vals i = Some v -> od_get a d = Some v).
Proof. intro A. exact (@tuple_dict_tuple A). Qed.
Print Assumptions C10_tuple_to_dict_and_back.

(** C10: dict -> tuple -> dict keeps the name and every argument. *)
Theorem C10_dict_to_tuple_and_back :
  forall (A : Type) (reg : od string (option (list string))) n args (d : od string (pyval A)),
    od_get n reg = Some (Some args) -> NoDup args -> ~ In "name"%string args ->
    od_get "name"%string d = Some (VStr n) -> (forall a, In a args -> od_get a d <> None) ->
    exists l d', argument_format reg (IDict d) FTuple = Ok (OTuple l) /\
      argument_format reg (ISeq l) FDict = Ok (ODict d') /\
      od_keys d' = "name"%string :: args /\
      (forall k, In k ("name"%string :: args) -> od_get k d' = od_get k d).
Proof. intro A. exact (@dict_tuple_dict A). Qed.
Print Assumptions C10_dict_to_tuple_and_back.

(** C10: the string form of an observable without arguments. *)
Theorem C10_string_form :
  forall (A : Type) (reg : od string (option (list string))) n, od_get n reg = Some None ->
    argument_format (A:=A) reg (IStr n) FTuple = Ok (OStr n) /\
    argument_format (A:=A) reg (IStr n) FList = Ok (OStr n) /\
    argument_format (A:=A) reg (IStr n) FDict = Ok (ODict [("name"%string, VStr n)]) /\
    argument_format (A:=A) reg (IDict [("name"%string, VStr n)]) FTuple = Ok (OStr n).
Proof. intro A. exact (@af_string A). Qed.
Print Assumptions C10_string_form.

(** C10: unknown names raise KeyError in every form. *)
Theorem C10_unknown_name_raises :
  forall (A : Type) (reg : od string (option (list string))) n f (vals : list (pyval A)) (d : od string (pyval A)),
    od_get n reg = None ->
    argument_format (A:=A) reg (IStr n) f = Err KeyError /\
    argument_format reg (ISeq (VStr n :: vals)) f = Err KeyError /\
    (od_get "name"%string d = Some (VStr n) -> argument_format reg (IDict d) f = Err KeyError).
Proof. intro A. exact (@af_unknown A). Qed.
Print Assumptions C10_unknown_name_raises.

(** C10: a wrong number of arguments raises: surplus or missing tuple entries, arguments for
    an observable without arguments, no arguments, a dictionary lacking one. *)
Theorem C10_wrong_number_raises :
  forall (A : Type) (reg : od string (option (list string))) n a f (vals : list (pyval A)),
    od_get n reg = Some a ->
    (match a with Some args => length vals <> length args | None => True end) ->
    argument_format reg (ISeq (VStr n :: vals)) f = Err ValueError.
Proof. intro A. exact (@af_wrong_number A). Qed.
Print Assumptions C10_wrong_number_raises.
Theorem C10_missing_arguments_raise :
  forall (A : Type) (reg : od string (option (list string))) n args f (d : od string (pyval A)),
    od_get n reg = Some (Some args) ->
    argument_format (A:=A) reg (IStr n) f = Err ValueError /\
    (od_get "name"%string d = Some (VStr n) -> (exists a, In a args /\ od_get a d = None) ->
     argument_format reg (IDict d) f = Err KeyError).
Proof. intro A. exact (@af_missing_arguments A). Qed.
Print Assumptions C10_missing_arguments_raise.

Definition demo_reg : od string (option (list string)) :=
  [("eps_K"%string, None); ("<BR>(B->K)"%string, Some ["q2min"%string; "q2max"%string])].
Example C10_demo :
  argument_format demo_reg (ISeq [VStr "<BR>(B->K)"%string; VNum 1; VNum 6]) FDict
  = Ok (ODict [("name"%string, VStr "<BR>(B->K)"%string); ("q2min"%string, VNum 1); ("q2max"%string, VNum 6)]) /\
  argument_format demo_reg (IDict [("q2max"%string, VNum 6); ("name"%string, VStr "<BR>(B->K)"%string); ("q2min"%string, VNum 1)]) FTuple
  = Ok (OTuple [VStr "<BR>(B->K)"%string; VNum 1; VNum 6]) /\
  NoDup ["q2min"%string; "q2max"%string] /\ ~ In "name"%string ["q2min"%string; "q2max"%string].
Proof.
  split; [reflexivity|]. split; [reflexivity|]. split.
  - apply nodupb_NoDup. reflexivity.
  - intros [H|[H|[]]]; discriminate.
Qed.

(** C63 (for an observable without arguments, format 'list' returns its name) is false for
    the dictionary form: the name is split into characters. *)
Theorem C63_list_format_of_dict_refuted :
  exists (reg : od string (option (list string))) n,
    od_get n reg = Some None /\
    argument_format (A:=nat) reg (IStr n) FList = Ok (OStr n) /\
    argument_format (A:=nat) reg (IDict [("name"%string, VStr n)]) FList <> Ok (OStr n) /\
    argument_format (A:=nat) reg (IDict [("name"%string, VStr n)]) FList
      = Ok (OList [VStr "m"%string; VStr "u"%string]).
Proof. exists [("mu"%string, None)], "mu"%string. vm_compute. repeat split; discriminate. Qed.
Print Assumptions C63_list_format_of_dict_refuted.

(** C66 (a dictionary with surplus arguments is rejected like a tuple with surplus
    arguments) is false: surplus entries are ignored or passed through. *)
Theorem C66_surplus_arguments_refuted :
  exists (reg : od string (option (list string))) (d : od string (pyval nat)) n,
    od_get "name"%string d = Some (VStr n) /\ od_get n reg = Some None /\ length d = 2 /\
    argument_format reg (IDict d) FTuple = Ok (OStr n) /\
    argument_format reg (IDict d) FDict = Ok (ODict d) /\
    argument_format reg (ISeq [VStr n; VNum 1]) FTuple = Err ValueError.
Proof.
  exists demo_reg, [("name"%string, VStr "eps_K"%string); ("q2"%string, VNum 1)], "eps_K"%string.
  vm_compute. repeat split.
Qed.
Print Assumptions C66_surplus_arguments_refuted.

(** C11: after any sequence of additions, a path exists in taxonomy_dict iff it is a prefix
    of the categories of an added string extended by the observable's name ... *)
Theorem C11_taxonomy_exact :
  forall (adds : list (string * string)) (p : list string),
    has_path p (taxonomy_dict (fold_left (fun t a => add_taxonomy (fst a) (snd a) t) adds (Node []))) <->
    p = [] \/ exists name s, In (name, s) adds /\ is_prefix p (split tax_sep s ++ [name]).
Proof. exact taxonomy_spec. Qed.
Print Assumptions C11_taxonomy_exact.
(** ... where the categories of 'A :: B :: C' are A, B, C (categories without colons). *)
Theorem C11_categories_of_string :
  forall cats : list string, cats <> [] -> Forall no_colon cats ->
    split tax_sep (String.concat " :: " cats) = cats.
Proof. exact split_join. Qed.
Print Assumptions C11_categories_of_string.
Example C11_demo :
  let t := taxonomy_dict (fold_left (fun t a => add_taxonomy (fst a) (snd a) t)
    [("eps_K", "Process :: meson mixing"); ("BR(B->K)", "Process :: b hadron decays :: FCNC decays")]%string (Node [])) in
  has_path ["Process"; "meson mixing"; "eps_K"]%string t /\ ~ has_path ["meson mixing"]%string t /\
  Forall no_colon ["Process"; "meson mixing"]%string.
Proof.
  cbv zeta. split; [|split].
  - rewrite taxonomy_spec. right. exists "eps_K"%string, "Process :: meson mixing"%string.
    split; [left; reflexivity|exists []; vm_compute; reflexivity].
  - rewrite taxonomy_spec. intros [H|[n [s [Hin [r Hr]]]]]; [discriminate|].
    destruct Hin as [Hin|[Hin|[]]]; injection Hin as <- <-; vm_compute in Hr; discriminate.
  - repeat constructor; vm_compute; discriminate.
Qed.

(** C12: a derived observable predicts the function of the inputs' predictions, carries
    their arguments, and leaves every other observable alone. *)
Theorem C12_from_function_composes :
  forall (E V : Type) name inputs (f : list V -> result V) (w : world E V) first o0,
    hd_error inputs = Some first -> od_get first w = Some o0 -> ~ In name inputs ->
    (forall n, In n inputs -> exists o g, od_get n w = Some o /\ o_args o = o_args o0 /\ o_pred o = Some g) ->
    exists w', from_function name inputs f w = (w', Ok tt) /\
      (forall x, predict name w' x = do vs <- mapM (fun n => predict n w x) inputs; f vs) /\
      (exists o, od_get name w' = Some o /\ o_args o = o_args o0) /\
      (forall n, n <> name -> od_get n w' = od_get n w).
Proof. intros E V. exact (@from_function_success E V). Qed.
Print Assumptions C12_from_function_composes.

(** C12: inputs that are missing, without prediction or with different arguments are
    rejected and nothing is created. *)
Theorem C12_bad_inputs_rejected :
  forall (E V : Type) name inputs (f : list V -> result V) (w : world E V),
    (inputs = [] \/
     exists first n, hd_error inputs = Some first /\ In n inputs /\
       (od_get n w = None \/ exists o, od_get n w = Some o /\
          (o_pred o = None \/ forall o0, od_get first w = Some o0 -> o_args o <> o_args o0))) ->
    exists e, from_function name inputs f w = (w, Err e).
Proof. intros E V. exact (@from_function_rejects E V). Qed.
Print Assumptions C12_bad_inputs_rejected.
Theorem C12_failure_creates_nothing :
  forall (E V : Type) name inputs (f : list V -> result V) (w w' : world E V) e,
    ~ In name inputs -> from_function name inputs f w = (w', Err e) -> w' = w.
Proof. intros E V. exact (@from_function_failure E V). Qed.
Print Assumptions C12_failure_creates_nothing.

(** C12: the derived prediction keeps meaning the same thing through any later operations on
    other observables (even if the inputs are redefined or deleted). *)
Theorem C12_definition_is_stable :
  forall (E V : Type) name inputs (f : list V -> result V) (w : world E V) first o0 ops,
    hd_error inputs = Some first -> od_get first w = Some o0 -> ~ In name inputs ->
    (forall n, In n inputs -> exists o g, od_get n w = Some o /\ o_args o = o_args o0 /\ o_pred o = Some g) ->
    Forall (fun o => target o <> name) ops ->
    forall x, predict name (orun ops (fst (from_function name inputs f w))) x
              = do vs <- mapM (fun n => predict n w x) inputs; f vs.
Proof.
  intros E V name inputs f w first o0 ops H1 H2 H3 H4 H5 x.
  destruct (C12_from_function_composes E V name inputs f w first o0 H1 H2 H3 H4) as [w' [Ew [Hp _]]].
  rewrite Ew. cbn [fst]. rewrite predict_orun by exact H5. apply Hp.
Qed.
Print Assumptions C12_definition_is_stable.

Definition demo_world : world nat nat :=
  orun [NewObs "a"%string None; NewPred "a"%string (fun x => Ok (x + 1));
        NewObs "b"%string None; NewPred "b"%string (fun x => Ok (2 * x))] [].
Definition minus (l : list nat) : result nat := match l with [x; y] => Ok (x - y) | _ => Err TypeError end.
Example C12_demo :
  predict "d"%string (orun [FromFun "d"%string ["b"%string; "a"%string] minus; DelObs "a"%string] demo_world) 10 = Ok 9.
Proof. reflexivity. Qed.

(** C64 (redefining an observable in terms of itself works or leaves it unchanged) is false:
    the observable is replaced first, then the call fails; the prediction is lost. *)
Theorem C64_self_redefinition_refuted :
  exists (w w' : world nat nat) name inputs f x v e,
    predict name w x = Ok v /\ from_function name inputs f w = (w', Err e) /\
    predict name w' x = Err AttributeError.
Proof.
  exists demo_world. eexists. exists "a"%string, ["a"%string; "b"%string], minus, 1, 2. eexists.
  vm_compute. repeat split.
Qed.
Print Assumptions C64_self_redefinition_refuted.

(** C13: exactly the registered measurements that currently constrain the observable (under
    its bare name or as a tuple), each once, in registration order. *)
Theorem C13_measurements_found_exactly :
  forall (A D : Type) (EqA : Eqb A) (EqD : Eqb D) name
         (ms : od string (list (cop (pkey (pyval A)) D))),
    Forall (fun m => forall k, current (rev (snd m)) k <> None -> k <> KTup []) ms ->
    exists hit : string * list (cop (pkey (pyval A)) D) -> bool,
      get_measurements name (map (fun m => (fst m, after [] (snd m))) ms) = Ok (map fst (filter hit ms)) /\
      forall m, In m ms -> (hit m = true <-> exists k, current (rev (snd m)) k <> None /\ concerns name k).
Proof.
  intros A D EqA EqD name ms Hall.
  destruct (get_measurements_spec name (map (fun m => (fst m, after [] (snd m))) ms)) as [hit [E Hh]].
  { rewrite Forall_map. eapply Forall_impl; [|exact Hall]. intros [n ops] Hm. cbn [snd] in *. intro Hin.
    apply (all_parameters_spec [] ops) in Hin. exact (Hm _ Hin eq_refl). }
  exists (fun m => hit (fst m, after [] (snd m))). split.
  - rewrite E. f_equal. clear. induction ms as [|[n ops] ms IH]; [reflexivity|]. cbn [map filter fst snd].
    destruct (hit (n, after [] ops)); cbn; rewrite IH; reflexivity.
  - intros [n ops] Hin. cbn [fst snd]. rewrite (Hh (n, after [] ops)).
    + cbn [snd]. split; intros [k [Hk Hc]]; exists k; split; try exact Hc;
        apply (all_parameters_spec [] ops); exact Hk.
    + apply in_map_iff. exists (n, ops). split; [reflexivity|exact Hin].
Qed.
Print Assumptions C13_measurements_found_exactly.
Example C13_demo :
  let k1 : pkey (pyval nat) := KStr "a"%string in
  let k2 : pkey (pyval nat) := KTup [VStr "b"%string; VNum 3] in
  let ms := [("m1"%string, [Add false [k1; k2] 0]); ("m2"%string, [Add false [k2] 1; Remove k2]);
             ("m3"%string, [Add false [k2] 2])] in
  Forall (fun m => forall k, current (rev (snd m)) k <> None -> k <> KTup []) ms /\
  get_measurements "b"%string (map (fun m => (fst m, after [] (snd m))) ms) = Ok ["m1"%string; "m3"%string].
Proof.
  cbn zeta. split; [|reflexivity].
  repeat (apply Forall_cons; [|]); try apply Forall_nil; intros k Hk ->; apply Hk; reflexivity.
Qed.

(** C14: the prediction of a quantity is that of the implementation last configured for it,
    as last defined; otherwise it raises. *)
Theorem C14_configured_implementation_is_used :
  forall (E V : Type) (ops : list (aop E V)) q x,
    aux_prediction q x (arun ops) =
    match configured (rev ops) q with
    | None => Err KeyError
    | Some n => match implemented (rev ops) n with
                | None => Err KeyError
                | Some None => Err AttributeError
                | Some (Some f) => f x
                end
    end.
Proof. intros E V. exact (@aux_prediction_spec E V). Qed.
Print Assumptions C14_configured_implementation_is_used.
Theorem C14_other_configuration_irrelevant :
  forall (E V : Type) (ops : list (aop E V)) q q' n x, q <> q' ->
    aux_prediction q x (arun (ops ++ [AConf q' n])) = aux_prediction q x (arun ops).
Proof.
  intros E V ops q q' n x Hne. rewrite !aux_prediction_spec, rev_app_distr. cbn [rev app configured implemented].
  destruct (eqb_spec q q'); [congruence|reflexivity].
Qed.
Print Assumptions C14_other_configuration_irrelevant.
Example C14_demo :
  aux_prediction "ff"%string 5 (arun [AQuant "ff"%string; AImpl "ff A"%string "ff"%string (fun x => Ok (x + 1));
    AImpl "ff B"%string "ff"%string (fun x => Ok (x + 2)); AConf "ff"%string "ff A"%string; AConf "ff"%string "ff B"%string]) = Ok 7.
Proof. reflexivity. Qed.

(** C15 is false: a rejected Implementation stays registered without function and quantity,
    replaces an existing implementation of that name, and makes show_all raise. *)
Theorem C15_rejected_implementation_refuted :
  exists (w : aux nat nat) name q f,
    (exists v, aux_prediction "ff"%string 5 w = Ok v) /\ (exists d, show_all w = Ok d) /\
    snd (new_implementation name q f w) = Err ValueError /\
    impls (fst (new_implementation name q f w)) <> impls w /\
    aux_prediction "ff"%string 5 (fst (new_implementation name q f w)) = Err AttributeError /\
    show_all (fst (new_implementation name q f w)) = Err AttributeError.
Proof.
  exists (arun [AQuant "ff"%string; AImpl "ff A"%string "ff"%string (fun x => Ok (x + 1)); AConf "ff"%string "ff A"%string]).
  exists "ff A"%string, "typo"%string, (fun x => Ok x).
  split; [eexists; reflexivity|]. split; [eexists; reflexivity|]. split; [reflexivity|].
  split; [cbn; discriminate|]. split; reflexivity.
Qed.
Print Assumptions C15_rejected_implementation_refuted.

(** C16 (partial): show_all shows, for every quantity, the last of its implementations ... *)
Theorem C16_show_all_last_partial :
  forall (E V : Type) (w : aux E V),
    Forall (fun ni => i_quantity (snd ni) <> None) (impls w) ->
    exists d, show_all w = Ok d /\
      forall q, od_get q d =
        match find (fun ni => eqb (i_quantity (snd ni)) (Some q)) (rev (impls w)) with
        | Some (n, i) => Some [(n, i_descr i)]
        | None => None
        end.
Proof. intros E V w. exact (show_loop_spec (impls w) []). Qed.
Print Assumptions C16_show_all_last_partial.
(** ... but not the others: the full statement is false. *)
Theorem C16_show_all_refuted :
  exists (w : aux nat nat) d name i q,
    show_all w = Ok d /\ In (name, i) (impls w) /\ i_quantity i = Some q /\
    match od_get q d with Some l => od_get name l = None | None => True end.
Proof.
  exists (arun [AQuant "ff"%string; AImpl "ff A"%string "ff"%string (fun x => Ok x);
                AImpl "ff B"%string "ff"%string (fun x => Ok x)]).
  eexists. exists "ff A"%string. eexists. exists "ff"%string. cbn. split; [reflexivity|].
  split; [left; reflexivity|]. split; reflexivity.
Qed.
Print Assumptions C16_show_all_refuted.

(** C65 (the implementation used for a quantity is one of this quantity) is false: the
    configuration may name an implementation of a different quantity, which is then used. *)
Theorem C65_implementation_of_other_quantity_refuted :
  exists (w : aux nat nat) q i, get_implementation q w = Ok i /\ i_quantity i <> Some q /\
    exists v, aux_prediction q 5 w = Ok v.
Proof.
  exists (arun [AQuant "ff1"%string; AQuant "ff2"%string; AImpl "ff2 A"%string "ff2"%string (fun x => Ok x);
                AConf "ff1"%string "ff2 A"%string]).
  exists "ff1"%string. eexists. split; [reflexivity|]. split; [discriminate|]. eexists. reflexivity.
Qed.
Print Assumptions C65_implementation_of_other_quantity_refuted.
