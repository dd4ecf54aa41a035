(** An example for the origin of events. *)
From Coq Require Import String ZArith NArith List.
From stdpp Require Import gmap.
From Verif Require Import Text Event Input Parse Selector Machine Template.
From Verif Require Import SpecText SpecAttr SpecParse SpecRender SpecTree SpecTransform SpecOps SpecSafe SpecLaws SpecOrigin
  SpecHtml5 SpecHtmlSafe.
From Verif Require Import TextProofs ParseProofs9 SelectProofs Trace PipelineProofs TreeProofs ErrorProofs SelectionProofs OpProofs
  SafeProofs3 ApiProofs ReachProofs Html5Proofs Html5Proofs2 Html5Proofs3 Html5Proofs4 OriginProofs.
Local Open Scope N_scope.

Definition oe_inner1 : pipeline := [OSetId (inl (Ident (StaticStr (lit "z"))))].
Definition oe_inner2 : pipeline :=
  [OAppendContents (CStatic (lit "!")); OAddClass (inl (Ident (StaticStr (lit "late"))))].
Definition oe_pipeline : pipeline :=
  [OSelect false (inl (SelTag (Ident (StaticStr (lit "p"))))) (fun _ => oe_inner1);
   OSelect false (inl (SelTag (Ident (StaticStr (lit "i"))))) (fun _ => oe_inner2)].
Definition oe_page : str := lit "<p id=""a"" class=""b""><i x=""1""/>t</p>".
Definition oe_result : str := lit "<p class=""b"" id=""z""><i x=""1"" class=""late"">!</i>t</p>".

Lemma oe_occurs o : Occurs oe_pipeline o -> In o (oe_pipeline ++ oe_inner1 ++ oe_inner2).
Proof.
  intros H. inversion H as [? ? Hi|o1 ? q ? Hi Hs Ho]; subst; [apply in_or_app; auto|].
  apply in_or_app. right. apply in_or_app.
  destruct Hi as [<-|[<-|[]]]; destruct Hs as [k ->]; [left|right];
    inversion Ho as [? ? Hj|o2 ? q2 ? Hj Hs2 Ho2]; subst; auto;
    repeat (destruct Hj as [<-|Hj]; [destruct Hs2|]); contradiction.
Qed.
Lemma oe_clean o : Occurs oe_pipeline o -> CleanCall o.
Proof.
  intros H. apply oe_occurs in H.
  repeat (destruct H as [<-|H]; [constructor; simpl; try discriminate; try contradiction; auto|]); try contradiction.
  all: try (intros ? [= <-]; apply library_selector; discriminate).
  all: try (intros ? [= <-]; apply clean_dec; reflexivity).
  intros ? [= <-]. constructor. apply clean_dec. reflexivity.
Qed.
Lemma oe_names : NamesValid oe_pipeline.
Proof.
  intros o i H. apply oe_occurs in H.
  repeat (destruct H as [<-|H]; [simpl; try discriminate|]); try contradiction;
  intros [= <-]; apply TextProofs.validate_iff; vm_compute; eauto.
Qed.
Lemma oe_typed : typed false oe_pipeline false.
Proof.
  eapply T_cons; [apply T_select; intros _; eexists; apply typed_one; constructor|].
  apply typed_one, T_select. intros _. eexists.
  repeat (eapply T_cons; [constructor|]). apply T_nil.
Qed.
Lemma origin_example : exists evs r, from_str oe_page default_options = TOk evs /\
  WellNested evs /\ typed false oe_pipeline false /\ ValidArgs oe_pipeline /\ ElementSelectors oe_pipeline /\
  Gives evs oe_pipeline (inl r) /\ display_events r = oe_result /\
  Untouched oe_pipeline
    (Attribute (Ident (Actual (lit "x"))) (Some (Encoded (Actual (lit "1"))))).
Proof.
  eexists. eexists. split; [vm_compute; reflexivity|].
  split; [|split; [exact oe_typed|split; [exact (clean_valid_args _ oe_names oe_clean)|split; [|split; [|split]]]]].
  - apply obtainable_template. apply (Ob_parsed _ oe_page default_options). vm_compute. reflexivity.
  - intros o m Ho. apply (clean_selector _ (oe_clean o Ho)).
  - exists 300%nat. eexists. vm_compute. reflexivity.
  - vm_compute. reflexivity.
  - intros o n H Ha Hn. apply oe_occurs in H.
    assert (n = lit "id" \/ n = lit "class") as [-> | ->].
    { repeat (destruct H as [<-|H]; [inversion Ha; auto|]). destruct H. }
    all: apply eq_ignore_spec in Hn; discriminate.
Qed.
