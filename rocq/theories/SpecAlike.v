(** Specification for C70: programs that do the same with different representations of the
    state of their closures.  No proofs. *)
From Coq Require Import List.
From stdpp Require Import gmap.
From Verif Require Import Text Event Input Parse Selector Machine MachineState SpecState.
Local Open Scope nat_scope.

(** Contents that are alike, see below. *)
Inductive AlikeContent {W V} (R : W -> V -> Prop) : wcontent W -> wcontent V -> Prop :=
| A_plain c : AlikeContent R (WCPlain c) (WCPlain c)
| A_live f g :
    (forall k w v, R w v -> R (fst (f k w)) (fst (g k v))) ->
    (forall k w v, R w v -> snd (f k w) = snd (g k v)) -> AlikeContent R (WCLive f) (WCLive g)
| A_finite f evs stop :
    (forall k w v, R w v -> R (fst (f k w)) v) ->
    (forall k w v, R w v -> k <= length evs -> snd (f k w) = answer evs stop k) ->
    AlikeContent R (WCLive f) (WCPlain (CStream evs stop))
| A_ok c c' : AlikeContent R c c' -> AlikeContent R (WCOk c) (WCOk c').

(** [Alike R p q]: the calls [p], whose closures have state of type [W], and [q], whose
    closures have state of type [V], are the same calls with the same arguments; and closures
    called in states related by [R] leave states related by [R] and make calls that are alike
    in turn.  Iterators called in related states either both have no item or have items that
    are alike; functions given to [apply_as_template] have the same result, and streams given as
    contents have the same event, end or error.  A stream that has the answers of a list of
    events in all states that occur is like that list.  [R] says how one kind of state represents
    the other. *)
Inductive Alike {W V} (R : W -> V -> Prop) : wpipeline W -> wpipeline V -> Prop :=
| A_nil : Alike R [] []
| A_cons o o' p q : AlikeOp R o o' -> Alike R p q -> Alike R (o :: p) (o' :: q)
with AlikeOp {W V} (R : W -> V -> Prop) : wop W -> wop V -> Prop :=
| A_apply p q : Alike R p q -> AlikeOp R (WApply p) (WApply q)
| A_boxed : AlikeOp R WIntoBoxed WIntoBoxed
| A_boxed_element : AlikeOp R WIntoBoxedElement WIntoBoxedElement
| A_either first p q other :
    Alike R p q -> AlikeOp R (WApplyEither first p other) (WApplyEither first q other)
| A_as_template f g :
    (forall w v events, R w v -> R (fst (f w events)) (fst (g v events))) ->
    (forall w v events, R w v -> snd (f w events) = snd (g v events)) ->
    AlikeOp R (WApplyAsTemplate f) (WApplyAsTemplate g)
| A_select direct sel b c :
    (forall k, AlikeOnce R (b k) (c k)) ->
    AlikeOp R (WSelect direct sel b) (WSelect direct sel c)
| A_select_once direct sel b c :
    AlikeOnce R b c -> AlikeOp R (WSelectOnce direct sel b) (WSelectOnce direct sel c)
| A_remove : AlikeOp R WRemove WRemove
| A_prepend c c' : AlikeContent R c c' -> AlikeOp R (WPrepend c) (WPrepend c')
| A_append c c' : AlikeContent R c c' -> AlikeOp R (WAppend c) (WAppend c')
| A_replace c c' : AlikeContent R c c' -> AlikeOp R (WReplace c) (WReplace c')
| A_repeat it jt : AlikeIter R it jt -> AlikeOp R (WRepeat it) (WRepeat jt)
| A_repeat_or_else it jt b c :
    AlikeIter R it jt -> AlikeOnce R b c ->
    AlikeOp R (WRepeatOrElse it b) (WRepeatOrElse jt c)
| A_sub_contents b c :
    AlikeOnce R b c -> AlikeOp R (WSubselectContents b) (WSubselectContents c)
| A_subselect direct sel b c :
    (forall k, AlikeOnce R (b k) (c k)) ->
    AlikeOp R (WSubselect direct sel b) (WSubselect direct sel c)
| A_subselect_once direct sel b c :
    AlikeOnce R b c -> AlikeOp R (WSubselectOnce direct sel b) (WSubselectOnce direct sel c)
| A_remove_contents : AlikeOp R WRemoveContents WRemoveContents
| A_prepend_contents c c' : AlikeContent R c c' -> AlikeOp R (WPrependContents c) (WPrependContents c')
| A_append_contents c c' : AlikeContent R c c' -> AlikeOp R (WAppendContents c) (WAppendContents c')
| A_replace_contents c c' : AlikeContent R c c' -> AlikeOp R (WReplaceContents c) (WReplaceContents c')
| A_repeat_contents it jt :
    AlikeIter R it jt -> AlikeOp R (WRepeatContents it) (WRepeatContents jt)
| A_repeat_contents_or_else it jt b c :
    AlikeIter R it jt -> AlikeOnce R b c ->
    AlikeOp R (WRepeatContentsOrElse it b) (WRepeatContentsOrElse jt c)
| A_add_attribute name v : AlikeOp R (WAddAttribute name v) (WAddAttribute name v)
| A_add_to_attribute name v sep :
    AlikeOp R (WAddToAttribute name v sep) (WAddToAttribute name v sep)
| A_replace_attribute name v : AlikeOp R (WReplaceAttribute name v) (WReplaceAttribute name v)
| A_set_attribute name v : AlikeOp R (WSetAttribute name v) (WSetAttribute name v)
| A_remove_attribute name : AlikeOp R (WRemoveAttribute name) (WRemoveAttribute name)
| A_add_class name : AlikeOp R (WAddClass name) (WAddClass name)
| A_remove_class name : AlikeOp R (WRemoveClass name) (WRemoveClass name)
| A_remove_id : AlikeOp R WRemoveId WRemoveId
| A_set_id name : AlikeOp R (WSetId name) (WSetId name)
with AlikeOnce {W V} (R : W -> V -> Prop) : once W -> once V -> Prop :=
| A_once b c :
    (forall w v, R w v -> R (fst (b w)) (fst (c v))) ->
    (forall w v, R w v -> Alike R (snd (b w)) (snd (c v))) -> AlikeOnce R b c
with AlikeIter {W V} (R : W -> V -> Prop) : iterator W -> iterator V -> Prop :=
| A_iter it jt :
    (forall k w v, R w v -> R (fst (it k w)) (fst (jt k v))) ->
    (forall k w v, R w v -> AlikeItem R (snd (it k w)) (snd (jt k v))) -> AlikeIter R it jt
with AlikeItem {W V} (R : W -> V -> Prop) : option (once W) -> option (once V) -> Prop :=
| A_none : AlikeItem R None None
| A_some b c : AlikeOnce R b c -> AlikeItem R (Some b) (Some c).

(** [Keeps I p]: closures called in states that have [I] leave states that have [I]; so do
    the closures of the calls they make. *)
Definition Keeps {W} (I : W -> Prop) (p : wpipeline W) : Prop :=
  Alike (fun w v => w = v /\ I w) p p.
