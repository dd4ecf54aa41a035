(** ** C69 Selectors of the user that match what is not an element

    [Selector] is a public trait; an implementation may match any event, for example by
    negating a selector of the library. *)
From Coq Require Import String ZArith List Lia.
From stdpp Require Import gmap.
From Verif Require Import Text Event Input Parse Selector Machine Template.
From Verif Require Import SpecText SpecAttr SpecParse SpecTree SpecTransform SpecOps SpecMeet.
From Verif Require Import TreeProofs SelectionProofs OpProofs MeetProofs Prop_Ops Prop_Selection.
Local Open Scope nat_scope.

(** If a matching event does not begin an element then the transformation fails, whatever
    the builder is. *)
Theorem C69_fails : forall direct m F evs ev b, Proper F -> ElementBuilder b ->
  ValidArgs [OSelect direct (inl m) b] -> MeetsIn direct m F evs -> FirstWrong evs ev ->
  exists err, Gives (events F) [OSelect direct (inl m) b] (inr err).
Proof. exact wrong_select. Qed.
Print Assumptions C69_fails.

(** If the builder has no errors of its own, the error names the first such event. *)
Theorem C69_error : forall direct m F evs ev b, Proper F -> ElementBuilder b ->
  ValidArgs [OSelect direct (inl m) b] -> (forall k, ElementSelectors (b k)) ->
  (forall k o err, Occurs (b k) o -> ~ SuppliesError o err) ->
  MeetsIn direct m F evs -> FirstWrong evs ev ->
  Gives (events F) [OSelect direct (inl m) b] (inr (wrong_match ev)).
Proof. exact wrong_select_error. Qed.
Print Assumptions C69_error.

(** If all matching events begin elements then it does not matter what else the selector
    would match. *)
Theorem C69_elements : forall direct m F evs b r, Proper F -> ElementBuilder b ->
  ValidArgs [OSelect direct (inl m) b] -> MeetsIn direct m F evs -> (forall ev, In ev evs -> Begins ev) ->
  (Gives (events F) [OSelect direct (inl m) b] r <->
   Gives (events F) [OSelect direct (inl (for_elements m)) b] r).
Proof. exact meets_elements. Qed.
Print Assumptions C69_elements.

(** The restricted selector is of the kind of C19. *)
Theorem C69_for_elements : forall m, ElementSelector (for_elements m) /\
  forall ev, Begins ev -> matches (for_elements m) ev = matches m ev.
Proof. exact (fun m => conj (for_elements_element m) (for_elements_begins m)). Qed.
Print Assumptions C69_for_elements.

(** One of the two cases applies. *)
Theorem C69_met : forall direct m F, exists evs, MeetsIn direct m F evs /\
  ((forall ev, In ev evs -> Begins ev) \/ exists ev, FirstWrong evs ev).
Proof. exact met_cases. Qed.
Print Assumptions C69_met.

(** For [select_once] the first match counts (if it begins an element, see C20). *)
Theorem C69_once_fails : forall direct m F ev post p e, Proper F -> typed true p e ->
  ValidArgs [OSelectOnce direct (inl m) p] -> MeetsIn direct m F (ev :: post) -> ~ Begins ev ->
  exists err, Gives (events F) [OSelectOnce direct (inl m) p] (inr err).
Proof. exact wrong_select_once. Qed.
Print Assumptions C69_once_fails.

Theorem C69_once_error : forall direct m F ev post p e, Proper F -> typed true p e ->
  ValidArgs [OSelectOnce direct (inl m) p] -> ElementSelectors p ->
  (forall o err, Occurs p o -> ~ SuppliesError o err) ->
  MeetsIn direct m F (ev :: post) -> ~ Begins ev ->
  Gives (events F) [OSelectOnce direct (inl m) p] (inr (wrong_match ev)).
Proof. exact wrong_select_once_error. Qed.
Print Assumptions C69_once_error.

(** Whatever the selectors are: every error was given to a call or is of this kind. *)
Theorem C69_errors : forall evs p e err, WellNested evs -> typed false p e -> ValidArgs p ->
  Gives evs p (inr err) ->
  (exists o, Occurs p o /\ SuppliesError o err) \/
  exists o m ev, Occurs p o /\ op_selector o = Some (inl m) /\ matches m ev = true /\
    ~ Begins ev /\ err = wrong_match ev.
Proof. exact errors_any. Qed.
Print Assumptions C69_errors.

(** ** Examples *)

(** What is not selected by [m]: a selector of the user. *)
Definition em_not (m : selector) : selector := SelCustom (fun ev => negb (matches m ev)).
Definition em_not_p : selector := em_not (SelTag (eo_id "p")).
Definition em_not_br : selector := em_not (SelTag (eo_id "br")).
Definition em_builder : nat -> pipeline := fun _ => [ORemoveContents].

Lemma em_typed : ElementBuilder em_builder.
Proof. intros k. exists true. apply typed_one. constructor. Qed.
Lemma em_occurs o : Occurs [ORemoveContents] o -> o = ORemoveContents.
Proof.
  intros H. inversion H as [o' p Hin|o' p q o'' Hin Hsub Hocc]; subst.
  - now destruct Hin as [<-|[]].
  - destruct Hin as [<-|[]]. inversion Hsub.
Qed.
Lemma em_args : ValidArgs [ORemoveContents].
Proof. apply valid_args_plain; [intros q H; inversion H|reflexivity..|discriminate]. Qed.
Lemma em_select_args direct m : ValidArgs [OSelect direct (inl m) em_builder].
Proof. apply valid_args_wrap; try reflexivity. intros q H. inversion H; subst. apply em_args. Qed.
Lemma em_once_args direct m : ValidArgs [OSelectOnce direct (inl m) [ORemoveContents]].
Proof. apply valid_args_wrap; try reflexivity. intros q H. inversion H; subst. apply em_args. Qed.
Lemma em_selectors : ElementSelectors [ORemoveContents].
Proof. intros o m H. now rewrite (em_occurs o H). Qed.
Lemma em_supplies o err : Occurs [ORemoveContents] o -> ~ SuppliesError o err.
Proof.
  intros H. rewrite (em_occurs o H). intros [E|[(i & E & _)|[(c & E & _)|(f & x & E & _)]]]; discriminate.
Qed.
Lemma em_proper : Proper [eo_p].
Proof. intros x [<-|[]]. apply eo_p_proper. Qed.
Lemma em_wrong s : ~ Begins (eo_text s).
Proof. intros H. now apply H. Qed.

(** In [<p class="a  b" title>1<br></P>] all events but the first match. *)
Lemma em_meets : Meets em_not_p [eo_p] [eo_text "1"; eo_br; eo_close].
Proof.
  apply (Meets_inside em_not_p _ _ eo_kids (eo_id "P") [] [eo_text "1"; eo_br] []).
  - reflexivity.
  - apply (Meets_match em_not_p (Leaf (eo_text "1"))); [reflexivity|].
    apply (Meets_match em_not_p (Leaf eo_br)); [reflexivity|constructor].
  - constructor.
Qed.
Lemma em_first : FirstWrong [eo_text "1"; eo_br; eo_close] (eo_text "1").
Proof. exists [], [eo_br; eo_close]. split; [reflexivity|]. split; [intros x []|apply em_wrong]. Qed.

Example C69_example_error : Gives (events [eo_p]) [OSelect false (inl em_not_p) em_builder]
  (inr (SEAssertion (MExpectedOpeningTag (Some (eo_text "1"))))).
Proof.
  apply (C69_error false em_not_p [eo_p] [eo_text "1"; eo_br; eo_close]).
  - apply em_proper.
  - apply em_typed.
  - apply em_select_args.
  - intros k. apply em_selectors.
  - intros k. apply em_supplies.
  - apply em_meets.
  - apply em_first.
Qed.

(** On the top level, in [1<br>]. *)
Example C69_example_direct : Gives (events eo_kids) [OSelect true (inl em_not_p) em_builder]
  (inr (wrong_match (eo_text "1"))).
Proof.
  apply (C69_error true em_not_p eo_kids [eo_text "1"; eo_br]).
  - intros x [<-|[<-|[]]]; [now constructor|apply eo_br_proper].
  - apply em_typed.
  - apply em_select_args.
  - intros k. apply em_selectors.
  - intros k. apply em_supplies.
  - reflexivity.
  - exists [], [eo_br]. split; [reflexivity|]. split; [intros x []|apply em_wrong].
Qed.

Example C69_example_once : Gives (events [eo_p]) [OSelectOnce false (inl em_not_p) [ORemoveContents]]
  (inr (wrong_match (eo_text "1"))).
Proof.
  apply (C69_once_error false em_not_p [eo_p] (eo_text "1") [eo_br; eo_close] _ true).
  - apply em_proper.
  - apply typed_one. constructor.
  - apply em_once_args.
  - apply em_selectors.
  - apply em_supplies.
  - apply em_meets.
  - apply em_wrong.
Qed.

(** The selector that matches all but [br] does no harm: the paragraph is selected as a whole,
    its text is not looked at. *)
Example C69_example_elements : Gives (events [eo_p]) [OSelect false (inl em_not_br) em_builder]
  (inl [eo_open; eo_close]).
Proof.
  apply (C69_elements false em_not_br [eo_p] [eo_open]).
  - apply em_proper.
  - apply em_typed.
  - apply em_select_args.
  - apply (Meets_match em_not_br eo_p); [reflexivity|constructor].
  - intros ev [<-|[]]. discriminate.
  - apply (C19_select false (for_elements em_not_br) [eo_p] [eo_p] [[eo_open; eo_close]]).
    + apply C69_for_elements.
    + apply em_proper.
    + apply em_typed.
    + apply em_select_args.
    + apply (Sel_match (for_elements em_not_br) eo_p [] [] [eo_open; eo_close] []); [reflexivity|constructor].
    + split; [reflexivity|]. intros [|[|k]] x r Hx Hr; try discriminate.
      injection Hx as <-. injection Hr as <-.
      exact (C23_remove_contents eo_p eo_open eo_kids eo_close eo_p_proper (In_elem _ _ _ _)).
Qed.

(** Finding: without the restriction to selectors for elements, selecting and doing nothing is
    not doing nothing (C18); the negation of a selector of the library suffices. *)
Theorem C69_unchanged_refuted : exists m F, Proper F /\
  ~ Gives (events F) [OSelect false (inl (SelCustom (fun ev => negb (matches m ev)))) (fun _ => [])]
      (inl (events F)).
Proof. exact select_negated. Qed.
Print Assumptions C69_unchanged_refuted.
