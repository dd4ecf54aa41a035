(** Specification for C75: programs that do the same from some time on, and iterators that use
    up a common supply.  No proofs. *)
From Coq Require Import List.
From stdpp Require Import gmap.
From Verif Require Import Text Event Input Parse Selector Machine MachineState SpecState SpecStop.
Local Open Scope nat_scope.

(** ** Programs that do the same from some time on

    As [SpecAlike], but what is known of the states can grow in the course of the program.  [X]
    are the stages of this knowledge, [le x y]: stage [y] can come after stage [x]; [R x] says
    how the states correspond in stage [x]. *)
Section Since.
Context {X W V : Type} (le : X -> X -> Prop) (R : X -> W -> V -> Prop).

(** Two answers that are the same; if they are events then [J] holds afterwards. *)
Definition SinceAnswer (J : X -> Prop) (y : X) (a : W * stream_result) (c : V * stream_result)
  : Prop :=
  exists z, le y z /\ R z (fst a) (fst c) /\ snd a = snd c /\
    forall ev, snd a = inl (Some ev) -> J z.

(** Contents that are alike from stage [x] on.  [I k y]: the stream can be asked the [k]th time
    in stage [y]. *)
Inductive SinceContent (x : X) : wcontent W -> wcontent V -> Prop :=
| I_plain c : SinceContent x (WCPlain c) (WCPlain c)
| I_live (I : nat -> X -> Prop) f g :
    I 0 x -> (forall k y z, I k y -> le y z -> I k z) ->
    (forall k y w v, I k y -> R y w v -> SinceAnswer (I (S k)) y (f k w) (g k v)) ->
    SinceContent x (WCLive f) (WCLive g)
| I_ok c c' : SinceContent x c c' -> SinceContent x (WCOk c) (WCOk c').

(** Calls that are alike from stage [x] on. *)
Inductive Since : X -> wpipeline W -> wpipeline V -> Prop :=
| I_nil x : Since x [] []
| I_cons x o o' p q : SinceOp x o o' -> Since x p q -> Since x (o :: p) (o' :: q)
with SinceOp : X -> wop W -> wop V -> Prop :=
| I_apply x p q : Since x p q -> SinceOp x (WApply p) (WApply q)
| I_boxed x : SinceOp x WIntoBoxed WIntoBoxed
| I_boxed_element x : SinceOp x WIntoBoxedElement WIntoBoxedElement
| I_either x first p q other :
    Since x p q -> SinceOp x (WApplyEither first p other) (WApplyEither first q other)
| I_as_template x f g :
    (forall y w v events, le x y -> R y w v ->
       exists z, le y z /\ R z (fst (f w events)) (fst (g v events)) /\
         snd (f w events) = snd (g v events)) ->
    SinceOp x (WApplyAsTemplate f) (WApplyAsTemplate g)
| I_select x direct sel b c :
    (forall k, SinceOnce x (b k) (c k)) ->
    SinceOp x (WSelect direct sel b) (WSelect direct sel c)
| I_select_once x direct sel b c :
    SinceOnce x b c -> SinceOp x (WSelectOnce direct sel b) (WSelectOnce direct sel c)
| I_remove x : SinceOp x WRemove WRemove
| I_prepend x c c' : SinceContent x c c' -> SinceOp x (WPrepend c) (WPrepend c')
| I_append x c c' : SinceContent x c c' -> SinceOp x (WAppend c) (WAppend c')
| I_replace x c c' : SinceContent x c c' -> SinceOp x (WReplace c) (WReplace c')
| I_repeat x it jt : SinceIter x it jt -> SinceOp x (WRepeat it) (WRepeat jt)
| I_repeat_or_else x it jt b c :
    SinceIter x it jt -> SinceOnce x b c ->
    SinceOp x (WRepeatOrElse it b) (WRepeatOrElse jt c)
| I_sub_contents x b c :
    SinceOnce x b c -> SinceOp x (WSubselectContents b) (WSubselectContents c)
| I_subselect x direct sel b c :
    (forall k, SinceOnce x (b k) (c k)) ->
    SinceOp x (WSubselect direct sel b) (WSubselect direct sel c)
| I_subselect_once x direct sel b c :
    SinceOnce x b c -> SinceOp x (WSubselectOnce direct sel b) (WSubselectOnce direct sel c)
| I_remove_contents x : SinceOp x WRemoveContents WRemoveContents
| I_prepend_contents x c c' : SinceContent x c c' -> SinceOp x (WPrependContents c) (WPrependContents c')
| I_append_contents x c c' : SinceContent x c c' -> SinceOp x (WAppendContents c) (WAppendContents c')
| I_replace_contents x c c' : SinceContent x c c' -> SinceOp x (WReplaceContents c) (WReplaceContents c')
| I_repeat_contents x it jt :
    SinceIter x it jt -> SinceOp x (WRepeatContents it) (WRepeatContents jt)
| I_repeat_contents_or_else x it jt b c :
    SinceIter x it jt -> SinceOnce x b c ->
    SinceOp x (WRepeatContentsOrElse it b) (WRepeatContentsOrElse jt c)
| I_add_attribute x name v : SinceOp x (WAddAttribute name v) (WAddAttribute name v)
| I_add_to_attribute x name v sep :
    SinceOp x (WAddToAttribute name v sep) (WAddToAttribute name v sep)
| I_replace_attribute x name v : SinceOp x (WReplaceAttribute name v) (WReplaceAttribute name v)
| I_set_attribute x name v : SinceOp x (WSetAttribute name v) (WSetAttribute name v)
| I_remove_attribute x name : SinceOp x (WRemoveAttribute name) (WRemoveAttribute name)
| I_add_class x name : SinceOp x (WAddClass name) (WAddClass name)
| I_remove_class x name : SinceOp x (WRemoveClass name) (WRemoveClass name)
| I_remove_id x : SinceOp x WRemoveId WRemoveId
| I_set_id x name : SinceOp x (WSetId name) (WSetId name)
(** a closure, called in any stage from [x] on *)
with SinceOnce : X -> once W -> once V -> Prop :=
| I_once x b c :
    (forall y w v, le x y -> R y w v -> SinceCalls y (b w) (c v)) -> SinceOnce x b c
with SinceCalls : X -> W * wpipeline W -> V * wpipeline V -> Prop :=
| I_calls y z w v p q : le y z -> R z w v -> Since z p q -> SinceCalls y (w, p) (v, q)
(** an iterator; [I k y]: it can be asked the [k]th time in stage [y] *)
with SinceIter : X -> iterator W -> iterator V -> Prop :=
| I_iter x (I : nat -> X -> Prop) it jt :
    I 0 x -> (forall k y z, I k y -> le y z -> I k z) ->
    (forall k y w v, I k y -> R y w v -> SinceNext (I (S k)) y (it k w) (jt k v)) ->
    SinceIter x it jt
with SinceNext : (X -> Prop) -> X -> W * option (once W) -> V * option (once V) -> Prop :=
| I_none (J : X -> Prop) y z w v : le y z -> R z w v -> SinceNext J y (w, None) (v, None)
| I_some (J : X -> Prop) y z w v b c : le y z -> R z w v -> J z -> SinceOnce z b c ->
    SinceNext J y (w, Some b) (v, Some c).
End Since.

(** ** Iterators that use up a common supply *)

(** A closure given to a call, see [Makes]. *)
Definition Gets {W} (o : wop W) (b : once W) : Prop :=
  match o with
  | WSelect _ _ bs | WSubselect _ _ bs => exists k, b = bs k
  | WSelectOnce _ _ b' | WSubselectOnce _ _ b' | WSubselectContents b' => b = b'
  | WRepeat it | WRepeatContents it => exists k v v', it k v = (v', Some b)
  | WRepeatOrElse it b' | WRepeatContentsOrElse it b' =>
      (exists k v v', it k v = (v', Some b)) \/ b = b'
  | _ => False
  end.

(** [m] is the size of a supply in the state of the program.  Every item of an iterator and every
    event of a stream given as contents takes something from it; nothing puts anything in. *)
Inductive Drains {W} (m : W -> nat) : wpipeline W -> Prop :=
| Drains_intro p :
    (forall o it k w w' b, In o p -> Asks o it -> it k w = (w', Some b) -> (m w' < m w)%nat) ->
    (forall o it k w w', In o p -> Asks o it -> it k w = (w', None) -> (m w' <= m w)%nat) ->
    (forall o f k w w' ev, In o p -> Puts o f -> f k w = (w', inl (Some ev)) -> (m w' < m w)%nat) ->
    (forall o f k w, In o p -> Puts o f -> (m (fst (f k w)) <= m w)%nat) ->
    (forall f w events, In (WApplyAsTemplate f) p -> (m (fst (f w events)) <= m w)%nat) ->
    (forall o b w, In o p -> Gets o b -> (m (fst (b w)) <= m w)%nat) ->
    (forall o b w, In o p -> Gets o b -> Drains m (snd (b w))) ->
    (forall o q, In o p -> (o = WApply q \/ exists first other, o = WApplyEither first q other) ->
       Drains m q) ->
    Drains m p.
