(** Specification for C76: what a transformation keeps between two events.  No proofs. *)
From Coq Require Import List.
From stdpp Require Import gmap.
From Verif Require Import Text Event Selector Machine SpecTransform SpecEnd.
Local Open Scope nat_scope.

(** [Keeps count h s n]: the stream [s], with all it refers to, keeps [n] things: every stream
    struct and every buffered event is one; a list of events that the library has collected is
    [count] of it.  The content of a shared cell is counted wherever it is referred to, so the
    true number is at most [n].  (A template that a stream reads, and a stream of the user, belong
    to their owners; such a stream is one.  The content of a cell that is borrowed is in use by
    a caller and not counted.) *)
Inductive Keeps (count : list event -> nat) (h : heap) : strm -> nat -> Prop :=
| K_template evs i : Keeps count h (STemplate evs i) 1
| K_user evs e : Keeps count h (SUser evs e) 1
| K_content c : Keeps count h (SContent c) 1
| K_shared l n : KeepsCell count h l n -> Keeps count h (SShared l) (S n)
| K_fallible_none : Keeps count h (SFallible None) 1
| K_fallible_error e : Keeps count h (SFallible (Some (FStart (inr e)))) 1
| K_fallible_start s n : Keeps count h s n -> Keeps count h (SFallible (Some (FStart (inl s)))) (S n)
| K_fallible_emit s n : Keeps count h s n -> Keeps count h (SFallible (Some (FEmit s))) (S n)
| K_expand_none : Keeps count h (SExpand None) 1
| K_expand_start s n : Keeps count h s n -> Keeps count h (SExpand (Some (XStart s))) (S n)
| K_expand_emit s n : Keeps count h s n -> Keeps count h (SExpand (Some (XEmitStream s))) (S n)
| K_expand_close tag : Keeps count h (SExpand (Some (XEmitClosingTag tag))) 1
| K_peek s n : Keeps count h s n -> Keeps count h (SPeek s None) (S n)
| K_peeked s ev n : Keeps count h s n -> Keeps count h (SPeek s (Some ev)) (2 + n)
| K_combine_none : Keeps count h (SCombine None) 1
| K_combine_first s1 s2 n m : Keeps count h s1 n -> Keeps count h s2 m ->
    Keeps count h (SCombine (Some (CmbFirst s1 s2))) (S (n + m))
| K_combine_second s n : Keeps count h s n -> Keeps count h (SCombine (Some (CmbSecond s))) (S n)
| K_remove s n : Keeps count h s n -> Keeps count h (SRemove s) (S n)
| K_single_none : Keeps count h (SSingle None) 1
| K_single_start ev s n : Keeps count h s n -> Keeps count h (SSingle (Some (SEStart ev s))) (2 + n)
| K_single_until tag s level n : Keeps count h s n ->
    Keeps count h (SSingle (Some (SEUntilClose tag s level))) (S n)
| K_select_none l m b calls direct n : KeepsCell count h l n ->
    Keeps count h (SSelect l m b calls direct None) (S n)
| K_select_scanning l m b calls direct level n : KeepsCell count h l n ->
    Keeps count h (SSelect l m b calls direct (Some (SelScanning level))) (S n)
| K_select_active l m b calls direct level s n k : KeepsCell count h l n -> Keeps count h s k ->
    Keeps count h (SSelect l m b calls direct (Some (SelActive level s))) (S (n + k))
| K_once_none l n : KeepsCell count h l n -> Keeps count h (SSelectOnce l None) (S n)
| K_once_scanning l m p direct level n : KeepsCell count h l n ->
    Keeps count h (SSelectOnce l (Some (SelOScanning m p direct level))) (S n)
| K_once_active l s n k : KeepsCell count h l n -> Keeps count h s k ->
    Keeps count h (SSelectOnce l (Some (SelOActive s))) (S (n + k))
| K_once_passing l n : KeepsCell count h l n ->
    Keeps count h (SSelectOnce l (Some SelOPassthrough)) (S n)
| K_contents_none : Keeps count h (SSelectContent None) 1
| K_contents_open s b n k : Keeps count h s n -> KeepsBuilder count h b k ->
    Keeps count h (SSelectContent (Some (SCOpen s b))) (S (n + k))
| K_contents_content l s tag n k : KeepsCell count h l n -> Keeps count h s k ->
    Keeps count h (SSelectContent (Some (SCContent l s tag))) (S (n + k))
| K_contents_close l tag n : KeepsCell count h l n ->
    Keeps count h (SSelectContent (Some (SCClose l tag))) (S n)
| K_current_none : Keeps count h (SCurrentContent None) 1
| K_current tag l level n : KeepsCell count h l n ->
    Keeps count h (SCurrentContent (Some (tag, l, level))) (S n)
| K_either first s n : Keeps count h s n -> Keeps count h (SApplyEither first s) (S n)
| K_apply_none : Keeps count h (STemplateApply None) 1
| K_apply_collect s f n : Keeps count h s n -> Keeps count h (STemplateApply (Some (TACollect s f))) (S n)
| K_apply_emit evs i : Keeps count h (STemplateApply (Some (TAEmit evs i))) (S (count evs))
| K_repeat_none : Keeps count h (SRepeat None) 1
| K_repeat_collect s bs n : Keeps count h s n -> Keeps count h (SRepeat (Some (RCollect s bs))) (S n)
| K_repeat_next evs bs : Keeps count h (SRepeat (Some (RNext evs bs))) (S (count evs))
| K_repeat_emit evs s bs n : Keeps count h s n ->
    Keeps count h (SRepeat (Some (REmit evs s bs))) (S (count evs + n))
| K_roe_none : Keeps count h (SRepeatOrElse None) 1
| K_roe_start contents s bs p n : Keeps count h s n ->
    Keeps count h (SRepeatOrElse (Some (ROEStart contents s bs p))) (S n)
| K_roe_fallback s n : Keeps count h s n -> Keeps count h (SRepeatOrElse (Some (ROEFallback s))) (S n)
| K_roe_repeat s n : Keeps count h s n -> Keeps count h (SRepeatOrElse (Some (ROERepeat s))) (S n)
| K_attr_none : Keeps count h (SAttr None) 1
| K_attr_start s c n : Keeps count h s n -> Keeps count h (SAttr (Some (AStart s c))) (S n)
| K_attr_emit s n : Keeps count h s n -> Keeps count h (SAttr (Some (AEmit s))) (S n)
with KeepsCell (count : list event -> nat) (h : heap) : loc -> nat -> Prop :=
| K_cell l s n : h !! l = Some (Cell s) -> Keeps count h s n -> KeepsCell count h l n
| K_borrowed l : h !! l = Some Borrowed -> KeepsCell count h l 0
(* the streams of the contents given to a call *)
with KeepsBuilder (count : list event -> nat) (h : heap) : content_builder -> nat -> Prop :=
| K_builder_user p : KeepsBuilder count h (CBUser p) 0
| K_builder_remove : KeepsBuilder count h CBRemove 0
| K_builder_replace s n : Keeps count h s n -> KeepsBuilder count h (CBReplace s) n
| K_builder_append s n : Keeps count h s n -> KeepsBuilder count h (CBAppend s) n
| K_builder_prepend s n : Keeps count h s n -> KeepsBuilder count h (CBPrepend s) n
| K_builder_select direct m b : KeepsBuilder count h (CBSelect direct m b) 0
| K_builder_once direct m p : KeepsBuilder count h (CBSelectOnce direct m p) 0
| K_builder_repeat bs : KeepsBuilder count h (CBRepeat bs) 0.

(** The calls that have to know all of the selection before they begin. *)
Definition Collects (o : op) : Prop :=
  match o with
  | OApplyAsTemplate _ | ORepeat _ | ORepeatOrElse _ _ | ORepeatContents _
  | ORepeatContentsOrElse _ _ => True
  | _ => False
  end.
(** Programs without such calls. *)
Definition Streaming (p : pipeline) : Prop := forall o, Occurs p o -> ~ Collects o.

(** The stream [s] is asked for some number of events, and is then [s']. *)
Inductive Goes : heap -> strm -> heap -> strm -> Prop :=
| Goes_no_more h s : Goes h s h s
| Goes_next h s h1 s1 r h' s' : Answers h s h1 s1 r -> Goes h1 s1 h' s' -> Goes h s h' s'
| Goes_skip h s h1 s1 r h' s' : AnswersSkip h s h1 s1 r -> Goes h1 s1 h' s' -> Goes h s h' s'.
