(** Specification for C69: selectors of the user that match events which do not begin an
    element. *)
From Coq Require Import List.
From stdpp Require Import gmap.
From Verif Require Import Text Event Selector Machine.
From Verif Require Import SpecTree SpecTransform.

Definition Begins (ev : event) : Prop := element_tag_start ev <> None.

(** The events of the document that match, in order: those of selected elements only their
    first, since a selected element is passed as a whole. *)
Inductive Meets (m : selector) : list tree -> list event -> Prop :=
| Meets_nil : Meets m [] []
| Meets_match x F evs :
    matches m (start x) = true -> Meets m F evs -> Meets m (x :: F) (start x :: evs)
| Meets_leaf ev F evs :
    matches m ev = false -> Meets m F evs -> Meets m (Leaf ev :: F) evs
| Meets_inside t a kids c F evs1 evs2 :
    matches m (OpeningTag t a) = false -> Meets m kids evs1 -> Meets m F evs2 ->
    Meets m (Elem t a kids c :: F)
      (evs1 ++ (if matches m (ClosingTag c) then [ClosingTag c] else []) ++ evs2).

(** On the top level only, where closing tags do not count. *)
Definition MeetsDirect (m : selector) (F : list tree) (evs : list event) : Prop :=
  evs = List.filter (matches m) (map start F).

Definition MeetsIn (direct : bool) (m : selector) : list tree -> list event -> Prop :=
  if direct then MeetsDirect m else Meets m.

(** [ev] is the first of the events that does not begin an element. *)
Definition FirstWrong (evs : list event) (ev : event) : Prop :=
  exists pre post, evs = pre ++ ev :: post /\ (forall x, In x pre -> Begins x) /\ ~ Begins ev.

(** The selector, for events that begin an element only. *)
Definition for_elements (m : selector) : selector :=
  SelCustom (fun ev => match element_tag_start ev with Some _ => matches m ev | None => false end).

(** The error for such a match. *)
Definition wrong_match (ev : event) : stream_error := SEAssertion (MExpectedOpeningTag (Some ev)).
