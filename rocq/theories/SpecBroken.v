(** Specification for C71: templates whose tags do not match. *)
From Coq Require Import List Bool.
From stdpp Require Import gmap.
From Verif Require Import Text Event Selector Machine.
From Verif Require Import SpecText SpecTree SpecTransform.

(** How a call after [q] comes to see the events [evs] in a transformation of the template
    [T]: the template itself, or content given by the user, of whatever events, for example a
    stream that leaves out events of another. *)
Inductive Offers (T : list event) : pipeline -> list event -> Prop :=
| Offers_template : Offers T [] T
| Offers_replace c evs : ContentGives c (inl evs) -> Offers T [OReplace c] evs
| Offers_prepend c evs : ContentGives c (inl evs) -> Offers T [OPrepend c] (evs ++ T)
| Offers_append c evs : ContentGives c (inl evs) -> Offers T [OAppend c] (T ++ evs).

(** What follows the contents of an element does not close it: nothing follows, or the closing
    tag of another element. *)
Definition Unclosed (t : ident) (rest : list event) : Prop :=
  rest = [] \/ exists c rest', rest = ClosingTag c :: rest' /\ ~ SameName (id_str c) (id_str t).

(** The calls that look at the contents of the selected element. *)
Inductive InContents : op -> Prop :=
| In_subselect_contents p : InContents (OSubselectContents p)
| In_subselect direct m b : InContents (OSubselect direct (inl m) b)
| In_subselect_once direct m p : InContents (OSubselectOnce direct (inl m) p)
| In_remove_contents : InContents ORemoveContents
| In_prepend_contents c : InContents (OPrependContents c)
| In_append_contents c : InContents (OAppendContents c)
| In_replace_contents c : InContents (OReplaceContents c)
| In_repeat_contents bs : InContents (ORepeatContents bs)
| In_repeat_contents_or_else b bs p : InContents (ORepeatContentsOrElse (b :: bs) p).

(** How many tags open and close elements; the names do not count. *)
Definition openings (evs : list event) : nat :=
  length (List.filter (fun ev => match ev with OpeningTag _ _ => true | _ => false end) evs).
Definition closings (evs : list event) : nat :=
  length (List.filter (fun ev => match ev with ClosingTag _ => true | _ => false end) evs).

(** Nothing is closed that has not been opened. *)
Definition NeverBelow (evs : list event) : Prop :=
  forall pre c post, evs = pre ++ ClosingTag c :: post -> (closings pre < openings pre)%nat.

(** The events after the opening tag of an element with this name do not close it: each
    closing tag with the name is for an element opened later; so many of these are open. *)
Definition IsTagOf (t : ident) (ev : event) : Prop :=
  match ev with OpeningTag n _ | ClosingTag n => SameName (id_str n) (id_str t) | _ => False end.
Inductive NeverClosed (t : ident) : nat -> list event -> Prop :=
| Never_end n : NeverClosed t n []
| Never_open n u a evs : SameName (id_str u) (id_str t) ->
    NeverClosed t (S n) evs -> NeverClosed t n (OpeningTag u a :: evs)
| Never_close n u evs : SameName (id_str u) (id_str t) ->
    NeverClosed t n evs -> NeverClosed t (S n) (ClosingTag u :: evs)
| Never_other n ev evs : ~ IsTagOf t ev -> NeverClosed t n evs -> NeverClosed t n (ev :: evs).

(** What builders that do not look at the contents of an element make of its events. *)
Inductive Outside (el : list event) : pipeline -> list event + stream_error -> Prop :=
| Out_nothing : Outside el [] (inl el)
| Out_remove : Outside el [ORemove] (inl [])
| Out_replace c r : ContentGives c r -> Outside el [OReplace c] r
| Out_prepend c evs : ContentGives c (inl evs) -> Outside el [OPrepend c] (inl (evs ++ el))
| Out_append c evs : ContentGives c (inl evs) -> Outside el [OAppend c] (inl (el ++ evs)).
