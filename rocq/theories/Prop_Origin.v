(** Property C60: everything in a result comes from the template or from the arguments. *)
From Coq Require Import String ZArith NArith List.
From stdpp Require Import gmap.
From Verif Require Import Text Event Input Parse Selector Machine Template.
From Verif Require Import SpecText SpecAttr SpecParse SpecTree SpecTransform SpecOps SpecLaws SpecOrigin.
From Verif Require Import OriginProofs OriginProofs2.

(** ** C60 Transformations invent nothing *)

(** Every event of the result comes from an event of the template, of a template given as
    content or of one returned by a function.  It is that event, or the same tag with other
    values of attributes that some call is about, or a tag of an element that closed itself. *)
Theorem C60_origin : forall evs p e r, WellNested evs -> typed false p e -> ValidArgs p ->
  ElementSelectors p -> Gives evs p (inl r) ->
  forall y, In y r -> exists x, Origin p x y /\ (In x evs \/ Brought p x).
Proof. exact comes_from. Qed.
Print Assumptions C60_origin.

(** Texts, comments and document types are never changed. *)
Theorem C60_text : forall evs p e r, WellNested evs -> typed false p e -> ValidArgs p ->
  ElementSelectors p -> Gives evs p (inl r) -> forall y, In y r ->
  match y with
  | Data _ | RawData _ | Comment _ | Doctype _ => In y evs \/ Brought p y
  | _ => True
  end.
Proof. exact text_comes_from. Qed.
Print Assumptions C60_text.

(** Here the result is [<p class="b" id="z"><i x="1" class="late">!</i>t</p>]; the attribute x
    is not touched. *)
Example C60_example : exists evs r, from_str oe_page default_options = TOk evs /\
  WellNested evs /\ typed false oe_pipeline false /\ ValidArgs oe_pipeline /\ ElementSelectors oe_pipeline /\
  Gives evs oe_pipeline (inl r) /\ display_events r = oe_result /\
  Untouched oe_pipeline
    (Attribute (Ident (Actual (lit "x"))) (Some (Encoded (Actual (lit "1"))))).
Proof. exact origin_example. Qed.
