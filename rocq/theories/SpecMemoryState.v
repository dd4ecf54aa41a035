(** Specification for C77: what a transformation keeps between two events when the closures of
    the program have state.  No proofs. *)
From Coq Require Import List.
From stdpp Require Import gmap.
From Verif Require Import Text Event Selector Machine MachineState SpecDepth SpecStop.
Local Open Scope nat_scope.

(** As [SpecMemory.Keeps], for the streams of [MachineState].  (What closures, iterators and
    streams of the program keep is theirs and not counted.  A stream of the program is one.) *)
Inductive WKeeps {W} (count : list event -> nat) (h : gmap loc (wcell W)) : wstrm W -> nat -> Prop :=
| WK_template evs i : WKeeps count h (WSTemplate evs i) 1
| WK_user evs e : WKeeps count h (WSUser evs e) 1
| WK_live f : WKeeps count h (WSLive f) 1
| WK_content c : WKeeps count h (WSContent c) 1
| WK_shared l n : WKeepsCell count h l n -> WKeeps count h (WSShared l) (S n)
| WK_fallible_none : WKeeps count h (WSFallible None) 1
| WK_fallible_error e : WKeeps count h (WSFallible (Some (WFStart (inr e)))) 1
| WK_fallible_start s n : WKeeps count h s n -> WKeeps count h (WSFallible (Some (WFStart (inl s)))) (S n)
| WK_fallible_emit s n : WKeeps count h s n -> WKeeps count h (WSFallible (Some (WFEmit s))) (S n)
| WK_expand_none : WKeeps count h (WSExpand None) 1
| WK_expand_start s n : WKeeps count h s n -> WKeeps count h (WSExpand (Some (WXStart s))) (S n)
| WK_expand_emit s n : WKeeps count h s n -> WKeeps count h (WSExpand (Some (WXEmitStream s))) (S n)
| WK_expand_close tag : WKeeps count h (WSExpand (Some (WXEmitClosingTag tag))) 1
| WK_peek s n : WKeeps count h s n -> WKeeps count h (WSPeek s None) (S n)
| WK_peeked s ev n : WKeeps count h s n -> WKeeps count h (WSPeek s (Some ev)) (2 + n)
| WK_combine_none : WKeeps count h (WSCombine None) 1
| WK_combine_first s1 s2 n m : WKeeps count h s1 n -> WKeeps count h s2 m ->
    WKeeps count h (WSCombine (Some (WCmbFirst s1 s2))) (S (n + m))
| WK_combine_second s n : WKeeps count h s n -> WKeeps count h (WSCombine (Some (WCmbSecond s))) (S n)
| WK_remove s n : WKeeps count h s n -> WKeeps count h (WSRemove s) (S n)
| WK_single_none : WKeeps count h (WSSingle None) 1
| WK_single_start ev s n : WKeeps count h s n -> WKeeps count h (WSSingle (Some (WSEStart ev s))) (2 + n)
| WK_single_until tag s level n : WKeeps count h s n ->
    WKeeps count h (WSSingle (Some (WSEUntilClose tag s level))) (S n)
| WK_select_none l m b calls direct n : WKeepsCell count h l n ->
    WKeeps count h (WSSelect l m b calls direct None) (S n)
| WK_select_scanning l m b calls direct level n : WKeepsCell count h l n ->
    WKeeps count h (WSSelect l m b calls direct (Some (WSelScanning level))) (S n)
| WK_select_active l m b calls direct level s n k : WKeepsCell count h l n -> WKeeps count h s k ->
    WKeeps count h (WSSelect l m b calls direct (Some (WSelActive level s))) (S (n + k))
| WK_once_none l n : WKeepsCell count h l n -> WKeeps count h (WSSelectOnce l None) (S n)
| WK_once_scanning l m p direct level n : WKeepsCell count h l n ->
    WKeeps count h (WSSelectOnce l (Some (WSelOScanning m p direct level))) (S n)
| WK_once_active l s n k : WKeepsCell count h l n -> WKeeps count h s k ->
    WKeeps count h (WSSelectOnce l (Some (WSelOActive s))) (S (n + k))
| WK_once_passing l n : WKeepsCell count h l n ->
    WKeeps count h (WSSelectOnce l (Some WSelOPassthrough)) (S n)
| WK_contents_none : WKeeps count h (WSSelectContent None) 1
| WK_contents_open s b n k : WKeeps count h s n -> WKeepsBuilder count h b k ->
    WKeeps count h (WSSelectContent (Some (WSCOpen s b))) (S (n + k))
| WK_contents_content l s tag n k : WKeepsCell count h l n -> WKeeps count h s k ->
    WKeeps count h (WSSelectContent (Some (WSCContent l s tag))) (S (n + k))
| WK_contents_close l tag n : WKeepsCell count h l n ->
    WKeeps count h (WSSelectContent (Some (WSCClose l tag))) (S n)
| WK_current_none : WKeeps count h (WSCurrentContent None) 1
| WK_current tag l level n : WKeepsCell count h l n ->
    WKeeps count h (WSCurrentContent (Some (tag, l, level))) (S n)
| WK_either first s n : WKeeps count h s n -> WKeeps count h (WSApplyEither first s) (S n)
| WK_apply_none : WKeeps count h (WSTemplateApply None) 1
| WK_apply_collect s f n : WKeeps count h s n -> WKeeps count h (WSTemplateApply (Some (WTACollect s f))) (S n)
| WK_apply_emit evs i : WKeeps count h (WSTemplateApply (Some (WTAEmit evs i))) (S (count evs))
| WK_repeat_none : WKeeps count h (WSRepeat None) 1
| WK_repeat_collect s bs n : WKeeps count h s n -> WKeeps count h (WSRepeat (Some (WRCollect s bs))) (S n)
| WK_repeat_next evs bs : WKeeps count h (WSRepeat (Some (WRNext evs bs))) (S (count evs))
| WK_repeat_emit evs s bs n : WKeeps count h s n ->
    WKeeps count h (WSRepeat (Some (WREmit evs s bs))) (S (count evs + n))
| WK_roe_none : WKeeps count h (WSRepeatOrElse None) 1
| WK_roe_start contents s bs p n : WKeeps count h s n ->
    WKeeps count h (WSRepeatOrElse (Some (WROEStart contents s bs p))) (S n)
| WK_roe_fallback s n : WKeeps count h s n -> WKeeps count h (WSRepeatOrElse (Some (WROEFallback s))) (S n)
| WK_roe_repeat s n : WKeeps count h s n -> WKeeps count h (WSRepeatOrElse (Some (WROERepeat s))) (S n)
| WK_attr_none : WKeeps count h (WSAttr None) 1
| WK_attr_start s c n : WKeeps count h s n -> WKeeps count h (WSAttr (Some (WAStart s c))) (S n)
| WK_attr_emit s n : WKeeps count h s n -> WKeeps count h (WSAttr (Some (WAEmit s))) (S n)
with WKeepsCell {W} (count : list event -> nat) (h : gmap loc (wcell W)) : loc -> nat -> Prop :=
| WK_cell l s n : h !! l = Some (WCell s) -> WKeeps count h s n -> WKeepsCell count h l n
| WK_borrowed l : h !! l = Some WBorrowed -> WKeepsCell count h l 0
(* the streams of the contents given to a call *)
with WKeepsBuilder {W} (count : list event -> nat) (h : gmap loc (wcell W)) : wcontent_builder -> nat -> Prop :=
| WK_builder_user p : WKeepsBuilder count h (WCBUser p) 0
| WK_builder_remove : WKeepsBuilder count h WCBRemove 0
| WK_builder_replace s n : WKeeps count h s n -> WKeepsBuilder count h (WCBReplace s) n
| WK_builder_append s n : WKeeps count h s n -> WKeepsBuilder count h (WCBAppend s) n
| WK_builder_prepend s n : WKeeps count h s n -> WKeepsBuilder count h (WCBPrepend s) n
| WK_builder_select direct m b : WKeepsBuilder count h (WCBSelect direct m b) 0
| WK_builder_once direct m p : WKeepsBuilder count h (WCBSelectOnce direct m p) 0
| WK_builder_repeat bs : WKeepsBuilder count h (WCBRepeat bs) 0.

(** ** How deeply calls are put into each other *)

(** The contents given to a call. *)
Definition wop_content {W} (o : wop W) : option (wcontent W) :=
  match o with
  | WPrepend c | WAppend c | WReplace c
  | WPrependContents c | WAppendContents c | WReplaceContents c => Some c
  | _ => None
  end.
(** Results in results. *)
Fixpoint wnesting {W} (c : wcontent W) : nat :=
  match c with
  | WCPlain c => nesting c
  | WCLive _ => 0
  | WCOk c => S (wnesting c)
  end.

(** [WDepth p d]: [d] bounds the number of calls of [p]; a call counts one more than the most that
    any closure given to it makes of calls, at any time and in any state, and than the results its
    content is wrapped in.  Iterators can have any number of items, and streams of the program any
    number of events, or no end. *)
Inductive WDepth {W} : wpipeline W -> nat -> Prop :=
| WDepth_nil d : WDepth [] d
| WDepth_cons o p d d' :
    (forall q, Makes o q -> WDepth q d) ->
    (forall c, wop_content o = Some c -> wnesting c <= d) ->
    WDepth p d' -> WDepth (o :: p) (S (d + d')).

(** The calls that have to know all of the selection before they begin. *)
Definition WCollects {W} (o : wop W) : Prop :=
  match o with
  | WApplyAsTemplate _ | WRepeat _ | WRepeatOrElse _ _ | WRepeatContents _
  | WRepeatContentsOrElse _ _ => True
  | _ => False
  end.
(** Programs without such calls. *)
Inductive WStreaming {W} : wpipeline W -> Prop :=
| WStreaming_intro p :
    (forall o, In o p -> ~ WCollects o) ->
    (forall o q, In o p -> Makes o q -> WStreaming q) -> WStreaming p.

(** ** Running *)

(** The stream [s], with the cells and the state [h], is asked for some number of events, by
    [next_event] or by [next_event_skip_noop]. *)
Inductive WGoes {W} : wheap W -> wstrm W -> wheap W -> wstrm W -> Prop :=
| WGoes_no_more h s : WGoes h s h s
| WGoes_next n h s h1 s1 r h' s' : wne (wrun n) h s = WDone h1 (s1, r) -> WGoes h1 s1 h' s' ->
    WGoes h s h' s'
| WGoes_skip n h s h1 s1 r h' s' : wsk (wrun n) h s = WDone h1 (s1, r) -> WGoes h1 s1 h' s' ->
    WGoes h s h' s'.
