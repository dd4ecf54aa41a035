(** Specification for C67: programs whose closures have state, compared with programs whose
    closures have none.  No proofs. *)
From Coq Require Import List.
From stdpp Require Import gmap.
From Verif Require Import Text Event Input Parse Selector Machine MachineState.
From Verif Require Import SpecTransform.
Local Open Scope nat_scope.

(** What the events of a stream of the program and the contents given to a call can be, see
    below.  [k]: how many events have to be given before the rest may be cut off. *)
Inductive PossibleEvents {W} : nat -> live W -> list event -> option stream_error -> Prop :=
| PE_end k f w : snd (f 0 w) = inl None -> PossibleEvents k f [] None
| PE_fail k f w err : snd (f 0 w) = inr err -> PossibleEvents k f [] (Some err)
| PE_cut f : PossibleEvents 0 f [] None
| PE_event k f w ev evs stop :
    snd (f 0 w) = inl (Some ev) -> PossibleEvents (pred k) (fun i => f (S i)) evs stop ->
    PossibleEvents k f (ev :: evs) stop.
Inductive PossibleContent {W} (n : nat) : wcontent W -> content -> Prop :=
| PC_plain c : PossibleContent n (WCPlain c) c
| PC_live f evs stop : PossibleEvents n f evs stop -> PossibleContent n (WCLive f) (CStream evs stop)
| PC_ok c c0 : PossibleContent n c c0 -> PossibleContent n (WCOk c) (CResult (inl c0)).

(** [Possible n p p0]: the calls [p], whose closures have state, can turn out to be the calls
    [p0], whose closures have none.  They are the same calls with the same arguments; where
    [p] has a closure, [p0] has, for every invocation, calls which the closure can make.

    The items of an iterator are those it can give, one after the other until it has none; an
    iterator that gives [n] items need not come to an end, and the items may then be cut off.
    (So for an iterator that never gives [n] items, they are all of its items.)  The same holds
    of the events of a stream of the program. *)
Inductive Possible {W} (n : nat) : wpipeline W -> pipeline -> Prop :=
| P_nil : Possible n [] []
| P_cons o p o0 p0 : PossibleOp n o o0 -> Possible n p p0 -> Possible n (o :: p) (o0 :: p0)
with PossibleOp {W} (n : nat) : wop W -> op -> Prop :=
| P_apply p p0 : Possible n p p0 -> PossibleOp n (WApply p) (OApply p0)
| P_boxed : PossibleOp n WIntoBoxed OIntoBoxed
| P_boxed_element : PossibleOp n WIntoBoxedElement OIntoBoxedElement
| P_either first p p0 other :
    Possible n p p0 -> PossibleOp n (WApplyEither first p other) (OApplyEither first p0 other)
| P_as_template f f0 :
    (forall events, exists w, f0 events = snd (f w events)) ->
    PossibleOp n (WApplyAsTemplate f) (OApplyAsTemplate f0)
| P_select direct sel b b0 :
    (forall k, exists w, Possible n (snd (b k w)) (b0 k)) ->
    PossibleOp n (WSelect direct sel b) (OSelect direct sel b0)
| P_select_once direct sel b p0 w :
    Possible n (snd (b w)) p0 ->
    PossibleOp n (WSelectOnce direct sel b) (OSelectOnce direct sel p0)
| P_remove : PossibleOp n WRemove ORemove
| P_prepend c c0 : PossibleContent n c c0 -> PossibleOp n (WPrepend c) (OPrepend c0)
| P_append c c0 : PossibleContent n c c0 -> PossibleOp n (WAppend c) (OAppend c0)
| P_replace c c0 : PossibleContent n c c0 -> PossibleOp n (WReplace c) (OReplace c0)
| P_repeat it bs0 : PossibleItems n n it bs0 -> PossibleOp n (WRepeat it) (ORepeat bs0)
| P_repeat_or_else it bs0 b p0 w :
    PossibleItems n n it bs0 -> Possible n (snd (b w)) p0 ->
    PossibleOp n (WRepeatOrElse it b) (ORepeatOrElse bs0 p0)
| P_sub_contents b p0 w :
    Possible n (snd (b w)) p0 -> PossibleOp n (WSubselectContents b) (OSubselectContents p0)
| P_subselect direct sel b b0 :
    (forall k, exists w, Possible n (snd (b k w)) (b0 k)) ->
    PossibleOp n (WSubselect direct sel b) (OSubselect direct sel b0)
| P_subselect_once direct sel b p0 w :
    Possible n (snd (b w)) p0 ->
    PossibleOp n (WSubselectOnce direct sel b) (OSubselectOnce direct sel p0)
| P_remove_contents : PossibleOp n WRemoveContents ORemoveContents
| P_prepend_contents c c0 : PossibleContent n c c0 -> PossibleOp n (WPrependContents c) (OPrependContents c0)
| P_append_contents c c0 : PossibleContent n c c0 -> PossibleOp n (WAppendContents c) (OAppendContents c0)
| P_replace_contents c c0 : PossibleContent n c c0 -> PossibleOp n (WReplaceContents c) (OReplaceContents c0)
| P_repeat_contents it bs0 :
    PossibleItems n n it bs0 -> PossibleOp n (WRepeatContents it) (ORepeatContents bs0)
| P_repeat_contents_or_else it bs0 b p0 w :
    PossibleItems n n it bs0 -> Possible n (snd (b w)) p0 ->
    PossibleOp n (WRepeatContentsOrElse it b) (ORepeatContentsOrElse bs0 p0)
| P_add_attribute name v : PossibleOp n (WAddAttribute name v) (OAddAttribute name v)
| P_add_to_attribute name v sep :
    PossibleOp n (WAddToAttribute name v sep) (OAddToAttribute name v sep)
| P_replace_attribute name v :
    PossibleOp n (WReplaceAttribute name v) (OReplaceAttribute name v)
| P_set_attribute name v : PossibleOp n (WSetAttribute name v) (OSetAttribute name v)
| P_remove_attribute name : PossibleOp n (WRemoveAttribute name) (ORemoveAttribute name)
| P_add_class name : PossibleOp n (WAddClass name) (OAddClass name)
| P_remove_class name : PossibleOp n (WRemoveClass name) (ORemoveClass name)
| P_remove_id : PossibleOp n WRemoveId ORemoveId
| P_set_id name : PossibleOp n (WSetId name) (OSetId name)
(* [k]: how many items have to be given before the rest may be cut off *)
with PossibleItems {W} (n : nat) : nat -> iterator W -> list pipeline -> Prop :=
| P_end k it w : snd (it 0 w) = None -> PossibleItems n k it []
| P_cut it : PossibleItems n 0 it []
| P_item k it w b w' p0 bs0 :
    snd (it 0 w) = Some b -> Possible n (snd (b w')) p0 ->
    PossibleItems n (pred k) (fun i => it (S i)) bs0 ->
    PossibleItems n k it (p0 :: bs0).

(** A program without state, as one with state: its closures leave the world alone. *)
Fixpoint stateless_op {W} (o : op) : wop W :=
  let once := fun p w => (w, map stateless_op p) in
  let many := fun b i w => (w, map stateless_op (b i)) in
  let iter := fun bs i w => (w, option_map (fun p w => (w, p))
                                  (nth_error (map (fun p => map stateless_op p) bs) i)) in
  match o with
  | OApply p => WApply (map stateless_op p)
  | OIntoBoxed => WIntoBoxed
  | OIntoBoxedElement => WIntoBoxedElement
  | OApplyEither first p other => WApplyEither first (map stateless_op p) other
  | OApplyAsTemplate f => WApplyAsTemplate (fun w events => (w, f events))
  | OSelect direct sel b => WSelect direct sel (many b)
  | OSelectOnce direct sel p => WSelectOnce direct sel (once p)
  | ORemove => WRemove
  | OPrepend c => WPrepend (WCPlain c)
  | OAppend c => WAppend (WCPlain c)
  | OReplace c => WReplace (WCPlain c)
  | ORepeat bs => WRepeat (iter bs)
  | ORepeatOrElse bs p => WRepeatOrElse (iter bs) (once p)
  | OSubselectContents p => WSubselectContents (once p)
  | OSubselect direct sel b => WSubselect direct sel (many b)
  | OSubselectOnce direct sel p => WSubselectOnce direct sel (once p)
  | ORemoveContents => WRemoveContents
  | OPrependContents c => WPrependContents (WCPlain c)
  | OAppendContents c => WAppendContents (WCPlain c)
  | OReplaceContents c => WReplaceContents (WCPlain c)
  | ORepeatContents bs => WRepeatContents (iter bs)
  | ORepeatContentsOrElse bs p => WRepeatContentsOrElse (iter bs) (once p)
  | OAddAttribute name v => WAddAttribute name v
  | OAddToAttribute name v sep => WAddToAttribute name v sep
  | OReplaceAttribute name v => WReplaceAttribute name v
  | OSetAttribute name v => WSetAttribute name v
  | ORemoveAttribute name => WRemoveAttribute name
  | OAddClass name => WAddClass name
  | ORemoveClass name => WRemoveClass name
  | ORemoveId => WRemoveId
  | OSetId name => WSetId name
  end.
Definition stateless {W} (p : pipeline) : once W := fun w => (w, map stateless_op p).

(** In the world [w], transforming [evs] with the closure [b] ends with [r] and leaves the
    world [w']. *)
Definition GivesIn {W} (evs : list event) (b : once W) (w : W)
    (r : list event + stream_error) (w' : W) : Prop :=
  exists n h, wtransform n evs b w = WDone (h, w') r.

(** The calls of one closure and then those of another. *)
Definition both {W} (b1 b2 : once W) : once W :=
  fun w => let '(w1, p1) := b1 w in let '(w2, p2) := b2 w1 in (w2, p1 ++ p2).

(** An iterator that always has one more item, a closure making no calls (such as
    [std::iter::repeat(|html| html)]). *)
Definition endless : iterator unit := fun _ w => (w, Some (fun w => (w, []))).

(** A stream that always has one more event. *)
Definition endless_events (ev : event) : live unit := fun _ w => (w, inl (Some ev)).

(** The [k]-th answer of a stream with these events that then ends or fails. *)
Definition answer (evs : list event) (stop : option stream_error) (k : nat)
  : option event + stream_error :=
  match nth_error evs k, stop with
  | Some ev, _ => inl (Some ev)
  | None, Some err => inr err
  | None, None => inl None
  end.

(** [Hands I o o0]: the closure of the call [o] has state, and hands it on from one call of
    the closure to the next: if [I k] holds of the world at its [k]-th call then it makes the
    calls of [o0], and [I (S k)] holds of the world it leaves.  The calls it makes have no
    state.  (An iterator is called once for each of the items and once at the end.  So is
    a stream given as content, for each of the events and at the end or for the error.) *)
Definition HandsMany {W} (I : nat -> W -> Prop) (b : builder W) (b0 : nat -> pipeline) : Prop :=
  forall k w, I k w -> exists w', b k w = (w', map stateless_op (b0 k)) /\ I (S k) w'.
Definition HandsOnce {W} (I : nat -> W -> Prop) (b : once W) (p0 : pipeline) : Prop :=
  forall w, I 0 w -> exists w', b w = (w', map stateless_op p0) /\ I 1 w'.
Definition HandsItems {W} (I : nat -> W -> Prop) (it : iterator W) (bs0 : list pipeline) : Prop :=
  forall k w, k <= length bs0 -> I k w ->
    exists w', it k w = (w', option_map stateless (nth_error bs0 k)) /\ I (S k) w'.
Definition HandsEvents {W} (I : nat -> W -> Prop) (f : live W) (evs : list event)
    (stop : option stream_error) : Prop :=
  forall k w, k <= length evs -> I k w ->
    exists w', f k w = (w', answer evs stop k) /\ I (S k) w'.
Inductive HandsContent {W} (I : nat -> W -> Prop) : wcontent W -> content -> Prop :=
| H_live f evs stop : HandsEvents I f evs stop -> HandsContent I (WCLive f) (CStream evs stop)
| H_ok c c0 : HandsContent I c c0 -> HandsContent I (WCOk c) (CResult (inl c0)).
Inductive Hands {W} (I : nat -> W -> Prop) : wop W -> op -> Prop :=
| H_select direct sel b b0 : HandsMany I b b0 -> Hands I (WSelect direct sel b) (OSelect direct sel b0)
| H_subselect direct sel b b0 :
    HandsMany I b b0 -> Hands I (WSubselect direct sel b) (OSubselect direct sel b0)
| H_select_once direct sel b p0 :
    HandsOnce I b p0 -> Hands I (WSelectOnce direct sel b) (OSelectOnce direct sel p0)
| H_subselect_once direct sel b p0 :
    HandsOnce I b p0 -> Hands I (WSubselectOnce direct sel b) (OSubselectOnce direct sel p0)
| H_sub_contents b p0 : HandsOnce I b p0 -> Hands I (WSubselectContents b) (OSubselectContents p0)
| H_as_template f f0 :
    (forall w events, I 0 w -> exists w', f w events = (w', f0 events) /\ I 1 w') ->
    Hands I (WApplyAsTemplate f) (OApplyAsTemplate f0)
| H_repeat it bs0 : HandsItems I it bs0 -> Hands I (WRepeat it) (ORepeat bs0)
| H_repeat_contents it bs0 : HandsItems I it bs0 -> Hands I (WRepeatContents it) (ORepeatContents bs0)
| H_repeat_or_else it bs0 p0 :
    HandsItems I it bs0 -> Hands I (WRepeatOrElse it (stateless p0)) (ORepeatOrElse bs0 p0)
| H_repeat_contents_or_else it bs0 p0 :
    HandsItems I it bs0 -> Hands I (WRepeatContentsOrElse it (stateless p0)) (ORepeatContentsOrElse bs0 p0)
| H_prepend c c0 : HandsContent I c c0 -> Hands I (WPrepend c) (OPrepend c0)
| H_append c c0 : HandsContent I c c0 -> Hands I (WAppend c) (OAppend c0)
| H_replace c c0 : HandsContent I c c0 -> Hands I (WReplace c) (OReplace c0)
| H_prepend_contents c c0 : HandsContent I c c0 -> Hands I (WPrependContents c) (OPrependContents c0)
| H_append_contents c c0 : HandsContent I c c0 -> Hands I (WAppendContents c) (OAppendContents c0)
| H_replace_contents c c0 : HandsContent I c c0 -> Hands I (WReplaceContents c) (OReplaceContents c0).
