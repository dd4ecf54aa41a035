(** Properties C41 and C44: rendering what was made from templates, and reading it back. *)
From Coq Require Import String ZArith List.
From stdpp Require Import gmap.
From Verif Require Import Text Event Input Parse Selector Machine Template.
From Verif Require Import SpecText SpecAttr SpecParse SpecRender SpecTree SpecTransform SpecOps SpecSafe.
From Verif Require Import ErrorProofs SafeProofs SafeProofs2 SafeProofs3.
Local Open Scope nat_scope.

(** ** C41 Inserting static text cannot change document structure *)

(** Any pipeline on a parsed template, if its texts are all literals or numbers: the result
    is rendered to a text that is read with the same markup and the same text between. *)
Theorem C41_static_calls : forall s opts evs p e r,
  from_str s opts = TOk evs -> Forall NoBang evs -> typed false p e -> NamesValid p ->
  (forall o, Occurs p o -> StaticCall o) -> Gives evs p (inl r) ->
  exists r', from_str (display_events r) (Options None None) = TOk r' /\ SameStructure r r'.
Proof. exact static_parses. Qed.
Print Assumptions C41_static_calls.

(** The only events inserted by such calls are text without markup. *)
Theorem C41_inserted_text : forall c, StaticContent c -> forall evs, ContentGives c (inl evs) -> PlainText evs.
Proof. exact static_plain. Qed.
Print Assumptions C41_inserted_text.

(** The calls that change attributes write such values if they are given literals or numbers. *)
Theorem C41_attribute_calls : forall name v sep o w, LiteralValue v -> LiteralValue sep ->
  In o [Api.add_attribute name (Some v); Api.add_attribute name None;
        Api.add_attribute_with_value name v; Api.add_empty_attribute name;
        Api.add_to_attribute name v sep; Api.replace_attribute_value_if_exists name v;
        Api.set_attribute name (Some v); Api.set_attribute name None;
        Api.set_attribute_with_value name v; Api.set_empty_attribute name;
        Api.remove_attribute name] ->
  WrittenValue o w -> StaticValue w.
Proof. exact attribute_calls_static. Qed.
Print Assumptions C41_attribute_calls.

Definition es_text : str := lit "<p title=""a"">x</p><script>1</script>".
Definition es_inner : pipeline :=
  [OAppendContents (CStatic (lit "</p>"));
   OSetAttribute (inl (Ident (StaticStr (lit "title"))))
     (Some (enc_from_unencoded_static_str (lit "b"" <i")));
   OPrepend (CInt (-3))].
Definition es_script : pipeline := [OAppendContents (CStatic (lit "</script>"))].
Definition es_pipeline : pipeline :=
  [OSelect false (inl (SelTag (Ident (StaticStr (lit "p"))))) (fun _ => es_inner);
   OSelect false (inl (SelTag (Ident (StaticStr (lit "script"))))) (fun _ => es_script)].
Definition es_result : str :=
  lit "-3<p title=""b&quot; &lt;i"">x&lt;/p&gt;</p><script>1&lt;/script&gt;</script>".
Lemma es_occurs o : Occurs es_pipeline o -> In o (es_pipeline ++ es_inner ++ es_script).
Proof.
  intros H. inversion H as [? ? Hi|o1 ? q ? Hi Hs Ho]; subst; [apply in_or_app; auto|].
  apply in_or_app. right. apply in_or_app.
  destruct Hi as [<-|[<-|[]]]; destruct Hs as [k ->]; [left|right];
    (inversion Ho as [? ? Hj|o2 ? q2 ? Hj Hs2 _]; subst; [exact Hj|];
     repeat (destruct Hj as [<-|Hj]; [destruct Hs2|]); destruct Hj).
Qed.
Lemma es_static o : Occurs es_pipeline o -> StaticCall o.
Proof.
  intros H. apply es_occurs in H.
  repeat (destruct H as [<-|H]; [constructor; simpl; try discriminate; try contradiction; auto|]); try contradiction.
  all: try (intros ? [= <-]; apply library_selector; discriminate).
  all: try (intros ? [= <-]; constructor; fail).
  - intros n [= <-]. split; [apply TextProofs.validate_iff; vm_compute; eauto|].
    intros c Hc Hd. repeat (destruct Hc as [<-|Hc]; [vm_compute in Hd; intuition discriminate|]). destruct Hc.
Qed.
Lemma es_names : NamesValid es_pipeline.
Proof.
  intros o i H. apply es_occurs in H.
  repeat (destruct H as [<-|H]; [simpl; try discriminate|]); try contradiction.
  intros [= <-]. apply TextProofs.validate_iff; vm_compute; eauto.
Qed.
Example C41_pipeline_example : exists evs r,
  from_str es_text default_options = TOk evs /\ Forall NoBang evs /\ typed false es_pipeline false /\
  NamesValid es_pipeline /\ (forall o, Occurs es_pipeline o -> StaticCall o) /\
  Gives evs es_pipeline (inl r) /\ display_events r = es_result /\
  exists r', from_str es_result (Options None None) = TOk r' /\ SameStructure r r'.
Proof.
  destruct (from_str es_text default_options) as [evs| | | ] eqn:E; try (vm_compute in E; discriminate E).
  assert (exists r, Gives evs es_pipeline (inl r) /\ display_events r = es_result) as (r & Hr & Hd).
  { vm_compute in E. injection E as <-. eexists. split.
    - exists 200. eexists. vm_compute. reflexivity.
    - vm_compute. reflexivity. }
  assert (Forall NoBang evs) as Hb.
  { vm_compute in E. injection E as <-. repeat constructor; try (intros (? & ? & [= <- <-] & ?); discriminate). }
  assert (typed false es_pipeline false) as Ht.
  { unfold es_pipeline. eapply T_cons; [apply T_select|eapply T_cons; [apply T_select|apply T_nil]];
      intros k; eexists; repeat (eapply T_cons; [constructor|]); apply T_nil. }
  exists evs, r. rewrite <- Hd.
  refine (conj eq_refl (conj Hb (conj Ht (conj es_names (conj es_static (conj Hr (conj eq_refl _))))))).
  exact (static_parses _ _ _ _ _ _ E Hb Ht es_names es_static Hr).
Qed.

(** ** C44 Rendered templates can be read back *)

(** False in general: the contents of a script element, repeated, may contain an end tag
    that neither of the copies has. *)
Theorem C44_repeat_refuted : exists s evs p r l,
  from_str s default_options = TOk evs /\ typed false p false /\
  (forall o, Occurs p o -> op_content o = None /\ op_name o = None /\ op_function o = None) /\
  Gives evs p (inl r) /\
  from_str (display_events r) default_options = TErr (ParseError (ExpectedClosingTagClose (lit "scr") l)).
Proof. exact repeat_raw_refuted. Qed.
Print Assumptions C44_repeat_refuted.

(** False for identifiers with an apostrophe, as the name of an attribute or of an element;
    and for an element called [!--]. *)
Theorem C44_attribute_refuted : exists s evs p r l,
  from_str s default_options = TOk evs /\ typed false p false /\ ObtainableArgs p /\
  Gives evs p (inl r) /\
  from_str (display_events r) default_options = TErr (ParseError (ExpectedOpeningTagClose (lit "p") l)).
Proof. exact attribute_name_refuted. Qed.
Print Assumptions C44_attribute_refuted.

Theorem C44_element_refuted : exists tag evs l,
  ident_from_static_str (lit "p'q") = inl tag /\ with_element (inl tag) = inl evs /\
  from_str (display_events evs) default_options = TErr (ParseError (ExpectedOpeningTagClose (lit "p") l)).
Proof. exact element_name_refuted. Qed.
Print Assumptions C44_element_refuted.

Theorem C44_comment_refuted : exists tag evs l,
  ident_from_static_str (lit "!--") = inl tag /\ with_element (inl tag) = inl evs /\
  from_str (display_events evs) default_options = TErr (ParseError (UnclosedComment l)).
Proof. exact element_comment_refuted. Qed.
Print Assumptions C44_comment_refuted.

(** Readable templates are read back from what they are rendered to. *)
Theorem C44_readable_parses : forall scripts evs, Readable scripts evs ->
  exists evs', from_str (display_events evs) (Options None None) = TOk evs' /\ SameStructure evs evs'.
Proof. exact readable_parses. Qed.
Print Assumptions C44_readable_parses.

(** Parsed templates are readable, unless a tag name begins with an exclamation mark. *)
Theorem C44_parsed_readable : forall s o evs, from_str s o = TOk evs -> Forall NoBang evs -> Readable true evs.
Proof. exact parsed_readable. Qed.
Print Assumptions C44_parsed_readable.

(** So are new elements, if the name has none of the parser's delimiters. *)
Theorem C44_element_readable : forall tag evs, Writable (id_str tag) -> no_bang (id_str tag) ->
  with_element (inl tag) = inl evs -> Readable true evs.
Proof. exact element_readable. Qed.
Print Assumptions C44_element_readable.

(** Pipelines of calls with safe arguments keep templates readable. *)
Theorem C44_safe_pipeline : forall scripts evs p e r, Readable scripts evs -> typed false p e ->
  ValidArgs p -> SafeCalls scripts p -> Gives evs p (inl r) -> Readable scripts r.
Proof. exact safe_pipeline. Qed.
Print Assumptions C44_safe_pipeline.

(** And elements built with such a pipeline are read back. *)
Theorem C44_built_parses : forall tag p e n h r, Writable (id_str tag) -> no_bang (id_str tag) ->
  typed true p e -> ValidArgs p ->
  (forall i o, OccursIn true false p i o -> SafeCall true i o) ->
  with_transformed_element n (inl tag) p = Done h (inl r) ->
  exists r', from_str (display_events r) (Options None None) = TOk r' /\ SameStructure r r'.
Proof. exact built_parses. Qed.
Print Assumptions C44_built_parses.

(** Without raw text elements, repeating and inserting templates is safe as well: here the
    items of a list, each with an inserted element. *)
Example C44_example : exists evs r,
  from_str (lit "<ul><li>x</li></ul>") default_options = TOk evs /\ Readable false evs /\
  typed false es_list false /\ ValidArgs es_list /\ SafeCalls false es_list /\ Gives evs es_list (inl r) /\
  display_events r = lit "<ul><li>x<br>&</li><li>x</li><li>x<br>&</li></ul>".
Proof. exact repeat_safe_example. Qed.
