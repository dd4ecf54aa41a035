(** Equations between pipelines: when two builders do the same, and what it means to
    exchange one for the other somewhere in a program. *)
From Coq Require Import String ZArith List Bool.
From stdpp Require Import gmap.
From Verif Require Import Text Event Input Parse Selector Machine Template.
From Verif Require Import SpecText SpecAttr SpecParse SpecTree SpecTransform SpecOps.

(** On every selection - of single elements if [e] - the builders have the same result,
    template or error. *)
Definition Equal (e : bool) (p q : pipeline) : Prop :=
  forall evs r, Selection e evs -> (Gives evs p r <-> Gives evs q r).

(** They succeed on the same selections with the same templates; where they fail, the errors
    may differ. *)
Definition Agree (e : bool) (p q : pipeline) : Prop :=
  forall evs out, Selection e evs -> (Gives evs p (inl out) <-> Gives evs q (inl out)).

(** The builder fails on no selection. *)
Definition NeverFails (e : bool) (p : pipeline) : Prop :=
  forall evs, Selection e evs -> exists out, Gives evs p (inl out).

(** [Exchange e0 p q e a b e']: in [a], a pipeline that takes elements if [e] and returns
    elements if [e'], some occurrences of [p] are replaced by [q], which gives [b].  The
    occurrences can be anywhere inside builders; if [e0], they have to be where elements
    are given to them. *)
Inductive Exchange (e0 : bool) (p q : pipeline) : bool -> pipeline -> pipeline -> bool -> Prop :=
| Ex_here e e1 e2 : (e0 = true -> e = true) -> typed e p e1 -> typed e q e2 ->
    Exchange e0 p q e p q (e1 && e2)
| Ex_same e a e' : typed e a e' -> Exchange e0 p q e a a e'
| Ex_then e a b e1 a' b' e2 : Exchange e0 p q e a b e1 -> Exchange e0 p q e1 a' b' e2 ->
    Exchange e0 p q e (a ++ a') (b ++ b') e2
| Ex_apply e a b e' : Exchange e0 p q e a b e' -> Exchange e0 p q e [OApply a] [OApply b] e'
| Ex_either e a b e' first other : Exchange e0 p q e a b e' ->
    Exchange e0 p q e [OApplyEither first a other] [OApplyEither first b other] (e' && other)
| Ex_select e d sel a b t : (forall k, Exchange e0 p q true (a k) (b k) (t k)) ->
    Exchange e0 p q e [OSelect d sel a] [OSelect d sel b] false
| Ex_select_once e d sel a b e' : Exchange e0 p q true a b e' ->
    Exchange e0 p q e [OSelectOnce d sel a] [OSelectOnce d sel b] false
| Ex_repeat e l l' t : ExchangeEach e0 p q e l l' t ->
    Exchange e0 p q e [ORepeat l] [ORepeat l'] false
| Ex_repeat_or_else e l l' t a b e' : ExchangeEach e0 p q e l l' t -> Exchange e0 p q e a b e' ->
    Exchange e0 p q e [ORepeatOrElse l a] [ORepeatOrElse l' b] false
| Ex_contents a b e' : Exchange e0 p q false a b e' ->
    Exchange e0 p q true [OSubselectContents a] [OSubselectContents b] true
| Ex_subselect d sel a b t : (forall k, Exchange e0 p q true (a k) (b k) (t k)) ->
    Exchange e0 p q true [OSubselect d sel a] [OSubselect d sel b] true
| Ex_subselect_once d sel a b e' : Exchange e0 p q true a b e' ->
    Exchange e0 p q true [OSubselectOnce d sel a] [OSubselectOnce d sel b] true
| Ex_repeat_contents l l' t : ExchangeEach e0 p q false l l' t ->
    Exchange e0 p q true [ORepeatContents l] [ORepeatContents l'] true
| Ex_repeat_contents_or_else l l' t a b e' :
    ExchangeEach e0 p q false l l' t -> Exchange e0 p q true a b e' ->
    Exchange e0 p q true [ORepeatContentsOrElse l a] [ORepeatContentsOrElse l' b] false
with ExchangeEach (e0 : bool) (p q : pipeline)
  : bool -> list pipeline -> list pipeline -> list bool -> Prop :=
| Each_nil e : ExchangeEach e0 p q e [] [] []
| Each_cons e a b e' l l' t : Exchange e0 p q e a b e' -> ExchangeEach e0 p q e l l' t ->
    ExchangeEach e0 p q e (a :: l) (b :: l') (e' :: t).

(** The call [o] changes attributes named [n]. *)
Inductive About : op -> str -> Prop :=
| About_add i v : About (OAddAttribute (inl i) v) (id_str i)
| About_add_to i v sep : About (OAddToAttribute (inl i) v sep) (id_str i)
| About_replace i v : About (OReplaceAttribute (inl i) v) (id_str i)
| About_set i v : About (OSetAttribute (inl i) v) (id_str i)
| About_remove i : About (ORemoveAttribute (inl i)) (id_str i)
| About_add_class i : About (OAddClass (inl i)) (lit "class")
| About_remove_class i : About (ORemoveClass (inl i)) (lit "class")
| About_set_id i : About (OSetId (inl i)) (lit "id")
| About_remove_id : About ORemoveId (lit "id").
