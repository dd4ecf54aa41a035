(** Properties C16, C17, C18, C29, C30: running transformations. *)
From Coq Require Import String ZArith List.
From stdpp Require Import gmap.
From Verif Require Import Text Event Input Parse Selector Machine Template.
From Verif Require Import SpecText SpecAttr SpecParse SpecTree SpecTransform SpecOps.
From Verif Require Import TreeProofs ReachProofs ErrorProofs SelectionProofs OpProofs ApiProofs ApiProofs2.
Local Open Scope nat_scope.

(** ** Examples *)

Definition ex_parsed (s : string) : list event :=
  match from_str (lit s) default_options with TOk evs => evs | _ => [] end.
Definition ex_source := ex_parsed "<a id=""q""><b>1<br></b><c/></a><b x>2<b>3</b></b><!--z-->".
Definition ex_tag (s : string) : selector := SelTag (Ident (StaticStr (lit s))).
Definition ex_pipeline : pipeline :=
  [OSelect false (inl (ex_tag "b"))
     (fun k => [OAppendContents (CInt (Z.of_nat k)); OAddClass (ident_from_static_str (lit "n"))]);
   OSelectOnce false (select_str (lit "a#q"))
     [OSubselectContents [ORepeat [[OAppend (CStatic (lit "<"))]; []]]];
   OPrepend (CTemplate ex_source)].

Lemma ex_source_obtainable : Obtainable Nothing ex_source.
Proof.
  apply (Ob_parsed _ (lit "<a id=""q""><b>1<br></b><c/></a><b x>2<b>3</b></b><!--z-->") default_options).
  vm_compute. reflexivity.
Qed.
Lemma ex_pipeline_typed : typed false ex_pipeline false.
Proof.
  econstructor; [|econstructor; [|econstructor; [|constructor]]].
  - constructor. intros k. exists true. econstructor; [constructor|]. apply typed_one. constructor.
  - econstructor. apply typed_one. econstructor. apply typed_one. constructor.
    constructor; [|constructor; [|constructor]]; eexists; [apply typed_one|]; constructor.
  - constructor.
Qed.
Lemma ex_pipeline_args : ObtainableArgs ex_pipeline.
Proof.
  apply obtainable_args_cons; [|apply obtainable_args_cons; [|apply obtainable_args_cons]].
  - apply obtainable_args_wrap; try reflexivity; [discriminate|]. intros q [k ->].
    apply obtainable_args_cons; [eapply obtainable_args_text; [reflexivity|exact I]|].
    apply obtainable_args_wrap; try reflexivity; [|intros q []].
    intros i Hi. vm_compute in Hi. injection Hi as <-. apply TextProofs.validate_iff. vm_compute. eauto.
  - apply obtainable_args_wrap; try reflexivity; [discriminate|]. intros q ->.
    apply obtainable_args_wrap; try reflexivity; [discriminate|]. intros q ->.
    apply obtainable_args_wrap; try reflexivity; [discriminate|].
    intros q [<-|[<-|[]]]; [|apply obtainable_args_nil].
    eapply obtainable_args_text; [reflexivity|exact I].
  - eapply obtainable_args_template; [reflexivity|]. apply ex_source_obtainable.
  - apply obtainable_args_nil.
Qed.
Example ex_pipeline_runs :
  (match transform 200 ex_source ex_pipeline with
   | Done _ (inl evs) => str_eqb (display_events evs)
       (display_events ex_source ++
        lit "<a id=""q""><b class=""n"">1<br>0</b><c />&lt;<b class=""n"">1<br>0</b><c /></a><b x class=""n"">2<b>3</b>1</b><!--z-->")
   | _ => false
   end) = true.
Proof. vm_compute. reflexivity. Qed.

(** ** C16 Transformations terminate, never panic and never fail internally *)

(** Every transformation has exactly one result. *)
Theorem C16_terminates : forall evs p e,
  Obtainable Nothing evs -> typed false p e -> ObtainableArgs p ->
  exists r, Gives evs p r /\ forall r', Gives evs p r' -> r' = r.
Proof. exact obtainable_total. Qed.
Print Assumptions C16_terminates.

(** The model's bound on the number of steps is not part of the result. *)
Theorem C16_fuel_irrelevant : forall evs p e,
  Obtainable Nothing evs -> typed false p e -> ObtainableArgs p ->
  exists n, forall m, n <= m -> transform m evs p <> OutOfFuel.
Proof. exact obtainable_enough. Qed.
Print Assumptions C16_fuel_irrelevant.

(** It never panics: no cell is borrowed twice, no unwrap fails. *)
Theorem C16_no_panic : forall evs p e,
  Obtainable Nothing evs -> typed false p e -> ObtainableArgs p ->
  forall n, transform n evs p <> Panicked.
Proof. exact obtainable_no_panic. Qed.
Print Assumptions C16_no_panic.

(** With the library's selectors, and unless it was given one as an argument, it does not
    report an internal error. *)
Theorem C16_no_internal_error : forall evs p e err,
  Obtainable Nothing evs -> typed false p e -> ObtainableArgs p ->
  (forall o m f, Occurs p o -> op_selector o = Some (inl m) -> m <> SelCustom f) ->
  (forall o i, Occurs p o -> SuppliesError o i -> ~ Internal i) ->
  Gives evs p (inr err) -> ~ Internal err.
Proof. exact obtainable_no_internal. Qed.
Print Assumptions C16_no_internal_error.

(** The same for building elements. *)
Theorem C16_with_transformed_element : forall tag p e,
  ValidTag tag -> typed true p e -> ObtainableArgs p ->
  (exists n h r, with_transformed_element n (inl tag) p = Done h r) /\
  forall n, with_transformed_element n (inl tag) p <> Panicked.
Proof. exact built_total. Qed.
Print Assumptions C16_with_transformed_element.

Example C16_example : exists r, Gives ex_source ex_pipeline r /\ forall r', Gives ex_source ex_pipeline r' -> r' = r.
Proof. exact (C16_terminates _ _ _ ex_source_obtainable ex_pipeline_typed ex_pipeline_args). Qed.
(** Why the selectors have to be the library's: a selector that matches text makes the
    transformation fail internally. *)
Definition ex_text_selector : selector :=
  SelCustom (fun ev => match ev with Data _ => true | _ => false end).
Example C16_custom_selectors_can_fail : exists reason,
  Gives ex_source [OSelect false (inl ex_text_selector) (fun _ => [ORemoveContents])]
        (inr (SEAssertion reason)).
Proof. eexists. exists 200. eexists. vm_compute. reflexivity. Qed.
(** Failing with the error that was given. *)
Example C16_example_error : Gives ex_source (ex_pipeline ++ [OSelect true (select_str (lit "")) (fun _ => [])])
  (inr (SEStaticSelector StaticUnrestricted)).
Proof. exists 200. eexists. vm_compute. reflexivity. Qed.

(** ** C17 Every template reachable through the API is well nested *)

(** Parsing, loading, building and transforming, with results fed into each other as
    content and through functions on templates, give forests of matching tags. *)
Theorem C17_well_nested : forall evs, Obtainable Nothing evs -> WellNested evs.
Proof. exact obtainable_template. Qed.
Print Assumptions C17_well_nested.

(** In terms of events: tags match, names are identifiers, and there is no [Noop]. *)
Theorem C17_events : forall evs, Obtainable Nothing evs ->
  Forest evs /\ forall ev, In ev evs -> ValidEvent ev /\ ev <> Noop.
Proof. exact obtainable_events. Qed.
Print Assumptions C17_events.

(** One step: the general hypothesis of the following theorems is met by every program. *)
Theorem C17_arguments : forall p, ObtainableArgs p -> ValidArgs p.
Proof. exact obtainable_args_valid. Qed.
Print Assumptions C17_arguments.

Theorem C17_transform : forall source p e evs,
  WellNested source -> typed false p e -> ValidArgs p -> Gives source p (inl evs) -> WellNested evs.
Proof. exact transform_well_nested. Qed.
Print Assumptions C17_transform.

Lemma ex_pipeline_no_functions : forall o, Occurs ex_pipeline o ->
  op_function o = None /\ forall x, ~ BreaksOff o x.
Proof.
  assert (forall o, op_function o = None ->
    match op_content o with Some (CResult _) | Some (CStream _ _) => False | _ => True end ->
    op_function o = None /\ forall x, ~ BreaksOff o x) as Hn.
  { intros o Hf Hc. split; [exact Hf|]. intros x (c & Ec & Hb). rewrite Ec in Hc. destruct Hb; contradiction. }
  intros o Ho. inversion Ho as [? ? Hi|? ? q ? Hi Hs Ho']; subst.
    * destruct Hi as [<-|[<-|[<-|[]]]]; (apply Hn; [reflexivity|exact I]).
    * destruct Hi as [<-|[<-|[<-|[]]]]; simpl in Hs.
      -- destruct Hs as [k ->]. inversion Ho' as [? ? Hi|? ? q' ? Hi Hs' Ho'']; subst;
           destruct Hi as [<-|[<-|[]]]; try (apply Hn; [reflexivity|exact I]); destruct Hs'.
      -- subst q. inversion Ho' as [? ? Hi|? ? q' ? Hi Hs' Ho'']; subst;
           destruct Hi as [<-|[]]; try (apply Hn; [reflexivity|exact I]). simpl in Hs'. subst q'.
         inversion Ho'' as [? ? Hi|? ? q' ? Hi Hs' Ho3]; subst; destruct Hi as [<-|[]]; try (apply Hn; [reflexivity|exact I]).
         simpl in Hs'. destruct Hs' as [<-|[<-|[]]].
         ++ inversion Ho3 as [? ? Hi|? ? q' ? Hi Hs' Ho4]; subst; destruct Hi as [<-|[]]; try (apply Hn; [reflexivity|exact I]).
            destruct Hs'.
         ++ inversion Ho3 as [? ? Hi|? ? q' ? Hi Hs' Ho4]; subst; destruct Hi.
      -- destruct Hs.
Qed.
Example C17_example : exists evs, Obtainable Nothing evs /\ length evs = 37 /\
  exists h, transform 200 ex_source ex_pipeline = Done h (inl evs).
Proof.
  destruct (transform 200 ex_source ex_pipeline) as [ | |h [evs|err] ] eqn:E.
  1-2,4: assert (match transform 200 ex_source ex_pipeline with Done _ (inl _) => true | _ => false end = true)
         as H by (vm_compute; reflexivity); rewrite E in H; discriminate.
  exists evs. split; [|split; [|eauto]].
  - eapply (Ob_transformed _ _ _ _ _ _ _ (fun _ _ => []));
      [apply ex_source_obtainable|apply ex_pipeline_typed|apply ex_pipeline_args|apply ex_pipeline_args| | |exact E].
    + intros o f x y Ho Hf. destruct (ex_pipeline_no_functions o Ho) as [Hn _]. congruence.
    + intros o x Ho Hb. now apply (ex_pipeline_no_functions o Ho) in Hb.
  - assert (match transform 200 ex_source ex_pipeline with Done _ (inl x) => Nat.eqb (length x) 37 | _ => false end = true)
      as H by (vm_compute; reflexivity). rewrite E in H. now apply Nat.eqb_eq.
Qed.

(** ** C18 Transforming nothing changes nothing *)

Theorem C18_identity : forall evs, WellNested evs -> Gives evs [] (inl evs).
Proof. exact identity_result. Qed.
Print Assumptions C18_identity.

(** A selector that matches nothing. *)
Theorem C18_select_no_match : forall direct m evs b, WellNested evs ->
  ElementBuilder b -> ValidArgs [OSelect direct (inl m) b] ->
  (forall ev, In ev evs -> matches m ev = false) ->
  Gives evs [OSelect direct (inl m) b] (inl evs).
Proof. exact select_no_match. Qed.
Print Assumptions C18_select_no_match.

Theorem C18_select_once_no_match : forall direct m evs p e, WellNested evs -> typed true p e ->
  ValidArgs [OSelectOnce direct (inl m) p] ->
  (forall ev, In ev evs -> matches m ev = false) ->
  Gives evs [OSelectOnce direct (inl m) p] (inl evs).
Proof. exact once_no_match. Qed.
Print Assumptions C18_select_once_no_match.

(** For direct selections only the top level matters. *)
Theorem C18_select_direct_no_match : forall m F b, Proper F -> ElementSelector m ->
  ElementBuilder b -> ValidArgs [OSelect true (inl m) b] ->
  (forall x, In x F -> matches m (start x) = false) ->
  Gives (events F) [OSelect true (inl m) b] (inl (events F)).
Proof. exact select_no_top_match. Qed.
Print Assumptions C18_select_direct_no_match.

Theorem C18_select_direct_once_no_match : forall m F p e, Proper F -> typed true p e ->
  ValidArgs [OSelectOnce true (inl m) p] ->
  (forall y, In y F -> matches m (start y) = false) ->
  Gives (events F) [OSelectOnce true (inl m) p] (inl (events F)).
Proof. exact once_direct_no_match. Qed.
Print Assumptions C18_select_direct_once_no_match.

(** A builder that leaves the selected elements alone. *)
Theorem C18_select_unchanged : forall direct m F b, ElementSelector m -> Proper F ->
  ElementBuilder b -> ValidArgs [OSelect direct (inl m) b] ->
  (forall k x, ProperTree x -> matches m (start x) = true ->
     Gives (tree_events x) (b k) (inl (tree_events x))) ->
  Gives (events F) [OSelect direct (inl m) b] (inl (events F)).
Proof. exact select_unchanged. Qed.
Print Assumptions C18_select_unchanged.

Theorem C18_select_once_unchanged : forall direct m F p e, ElementSelector m -> Proper F ->
  typed true p e -> ValidArgs [OSelectOnce direct (inl m) p] ->
  (forall x, ProperTree x -> matches m (start x) = true ->
     Gives (tree_events x) p (inl (tree_events x))) ->
  Gives (events F) [OSelectOnce direct (inl m) p] (inl (events F)).
Proof. exact once_unchanged. Qed.
Print Assumptions C18_select_once_unchanged.

Example C18_example_unchanged :
  Gives ex_source [OSelect false (inl (ex_tag "B")) (fun _ => [])] (inl ex_source).
Proof.
  destruct (C17_well_nested _ ex_source_obtainable) as (F & HF & ->).
  apply C18_select_unchanged; auto.
  - apply library_selector. discriminate.
  - intros k. exists true. constructor.
  - apply C17_arguments, obtainable_args_wrap; try reflexivity; [discriminate|].
    intros q [k ->]. apply obtainable_args_nil.
  - intros k x Hx _. apply C18_identity. now apply well_nested_tree.
Qed.
Example C18_example_no_match :
  Gives ex_source [OSelect false (inl (ex_tag "bb")) (fun _ => [ORemove])] (inl ex_source).
Proof.
  apply C18_select_no_match.
  - apply C17_well_nested, ex_source_obtainable.
  - intros k. eexists. apply typed_one. constructor.
  - apply C17_arguments, obtainable_args_wrap; try reflexivity; [discriminate|].
    intros q [k ->]. apply obtainable_args_wrap; try reflexivity; [discriminate|]. intros q [].
  - assert (forallb (fun ev => negb (matches (ex_tag "bb") ev)) ex_source = true) as H
      by (vm_compute; reflexivity).
    intros ev Hev. rewrite forallb_forall in H. exact (proj1 (negb_true_iff _) (H ev Hev)).
Qed.

(** ** C29 Errors surface and are never invented *)

(** A pipeline that is certain to make a call with an invalid selector or name, or with
    failing content for the stream itself, fails. *)
Theorem C29_errors_surface : forall evs p e o, WellNested evs -> typed false p e -> ValidArgs p ->
  AtTop p o -> Failing o -> exists err, Gives evs p (inr err).
Proof. exact failing_fails. Qed.
Print Assumptions C29_errors_surface.

(** Every error reported was an argument of some call, or was returned by a function given
    to [apply_as_template]. *)
Theorem C29_errors_given : forall evs p e err, WellNested evs -> typed false p e -> ValidArgs p ->
  ElementSelectors p -> Gives evs p (inr err) ->
  exists o, Occurs p o /\ SuppliesError o err.
Proof. exact errors_given. Qed.
Print Assumptions C29_errors_given.

(** The selectors of the library are of the kind required above. *)
Theorem C29_library_selectors : forall m, (forall f, m <> SelCustom f) -> ElementSelector m.
Proof. exact library_selector. Qed.
Print Assumptions C29_library_selectors.

(** There is an error or a template, never both. *)
Theorem C29_one_result : forall evs p r r', Gives evs p r -> Gives evs p r' -> r = r'.
Proof. exact gives_det. Qed.
Print Assumptions C29_one_result.

Definition ex_failing : pipeline :=
  [OSelect false (inl (ex_tag "b")) (fun _ => [ORemove]);
   OApply [OAppend (CResult (inr (SEIdentifier IdEmpty)))]].
Example C29_example : exists err, Gives ex_source ex_failing (inr err).
Proof.
  eapply (C29_errors_surface _ _ false (OAppend (CResult (inr (SEIdentifier IdEmpty))))).
  - apply C17_well_nested, ex_source_obtainable.
  - econstructor; [|apply typed_one; constructor; apply typed_one; constructor].
    constructor. intros k. eexists. apply typed_one. constructor.
  - apply C17_arguments. apply obtainable_args_cons; [|apply obtainable_args_cons; [|apply obtainable_args_nil]].
    + apply obtainable_args_wrap; try reflexivity; [discriminate|].
      intros q [k ->]. apply obtainable_args_wrap; try reflexivity; [discriminate|]. intros q [].
    + apply obtainable_args_wrap; try reflexivity; [discriminate|].
      intros q ->. eapply obtainable_args_failing. reflexivity.
  - eapply AtTop_apply; [right; left; reflexivity|]. constructor. now left.
  - right. right. exists (CResult (inr (SEIdentifier IdEmpty))), (SEIdentifier IdEmpty). split; [auto|constructor].
Qed.
(** Inside a selection that selects nothing, errors have no effect. *)
Example C29_not_reached :
  Gives ex_source [OSelect false (inl (ex_tag "bb")) (fun _ => [OAppend (CResult (inr (SEIdentifier IdEmpty)))])]
    (inl ex_source).
Proof. exists 200. eexists. vm_compute. reflexivity. Qed.

(** ** C30 Streaming is unobservable: chaining equals composing transforms *)

Theorem C30_chain : forall e p q e' evs mid r,
  Selection e evs -> typed e (p ++ q) e' -> ValidArgs (p ++ q) ->
  Gives evs p (inl mid) -> (Gives evs (p ++ q) r <-> Gives mid q r).
Proof. exact chain_result. Qed.
Print Assumptions C30_chain.

(** If the first part fails, the whole fails. *)
Theorem C30_chain_failure : forall e p q e' evs err,
  Selection e evs -> typed e (p ++ q) e' -> ValidArgs (p ++ q) ->
  Gives evs p (inr err) -> exists err', Gives evs (p ++ q) (inr err').
Proof. exact chain_failure. Qed.
Print Assumptions C30_chain_failure.

(** The error is that of the first part, or one that was given to the second part; *)
Theorem C30_chain_error : forall e p q e' evs err err',
  Selection e evs -> typed e (p ++ q) e' -> ValidArgs (p ++ q) -> ElementSelectors q ->
  Gives evs p (inr err) -> Gives evs (p ++ q) (inr err') ->
  err' = err \/ exists o, Occurs q o /\ SuppliesError o err'.
Proof. exact chain_error. Qed.
Print Assumptions C30_chain_error.

(** that of the first part, if none was given to the second. *)
Theorem C30_chain_same_error : forall e p q e' evs err,
  Selection e evs -> typed e (p ++ q) e' -> ValidArgs (p ++ q) -> ElementSelectors q ->
  (forall o err', Occurs q o -> ~ SuppliesError o err') ->
  Gives evs p (inr err) -> Gives evs (p ++ q) (inr err).
Proof. exact chain_same_error. Qed.
Print Assumptions C30_chain_same_error.

(** With errors in both parts, that of the second can come first. *)
Example C30_example_error : let fails i := CResult (inr (SEIdentifier i)) in
  Gives ex_source [OAppend (fails IdEmpty)] (inr (SEIdentifier IdEmpty)) /\
  Gives ex_source ([OAppend (fails IdEmpty)] ++ [OPrepend (fails IdNotAscii)]) (inr (SEIdentifier IdNotAscii)) /\
  Gives ex_source ([OAppend (fails IdEmpty)] ++ [ORemove]) (inr (SEIdentifier IdEmpty)).
Proof. split; [|split]; exists 100; eexists; vm_compute; reflexivity. Qed.

Example C30_example : exists mid, Gives ex_source (take 1 ex_pipeline) (inl mid) /\
  forall r, Gives ex_source ex_pipeline r <-> Gives mid (drop 1 ex_pipeline) r.
Proof.
  destruct (transform 200 ex_source (take 1 ex_pipeline)) as [ | |h [evs|err] ] eqn:E.
  1-2,4: assert (match transform 200 ex_source (take 1 ex_pipeline) with Done _ (inl _) => true | _ => false end = true)
         as H by (vm_compute; reflexivity); rewrite E in H; discriminate.
  exists evs. split; [do 2 eexists; exact E|]. intros r.
  apply (C30_chain false (take 1 ex_pipeline) (drop 1 ex_pipeline) false).
  - apply C17_well_nested, ex_source_obtainable.
  - apply ex_pipeline_typed.
  - apply C17_arguments, ex_pipeline_args.
  - do 2 eexists. exact E.
Qed.
