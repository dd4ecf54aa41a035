(** Where the events of a result come from. *)
From Coq Require Import String ZArith NArith List.
From stdpp Require Import gmap.
From Verif Require Import Text Event Input Parse Selector Machine Template.
From Verif Require Import SpecText SpecAttr SpecParse SpecTree SpecTransform SpecOps SpecLaws.

(** The event occurs in a template that is given to a call of [p] as content, or in one that is
    returned by a function given to a call. *)
Definition Brought (p : pipeline) (ev : event) : Prop :=
  exists o, Occurs p o /\
    ((exists evs, Supplied o evs /\ In ev evs) \/
     (exists f x y, op_function o = Some f /\ f x = inl y /\ In ev y)).

(** No call of [p] is about attributes with the name of [x]. *)
Definition Untouched (p : pipeline) (x : attribute) : Prop :=
  forall o n, Occurs p o -> About o n -> ~ NamedAs n x.
(** [b] differs from [a] only in attributes that are touched by [p]. *)
Definition Adjusted (p : pipeline) (a b : attributes) : Prop :=
  forall f : attribute -> bool, (forall x, f x = true -> Untouched p x) ->
    List.filter f b = List.filter f a.

(** [Origin p x y]: by calls of [p], the event [x] can have become [y]. *)
Inductive Origin (p : pipeline) : event -> event -> Prop :=
| Or_same ev : Origin p ev ev
| Or_opening t a b : Adjusted p a b -> Origin p (OpeningTag t a) (OpeningTag t b)
| Or_void t a b : Adjusted p a b -> Origin p (VoidTag t a) (VoidTag t b)
| Or_self_closed t a b : Adjusted p a b -> Origin p (SelfClosedTag t a) (SelfClosedTag t b)
| Or_opened t a b : Adjusted p a b -> Origin p (SelfClosedTag t a) (OpeningTag t b)
| Or_closed t a : Origin p (SelfClosedTag t a) (ClosingTag t).
