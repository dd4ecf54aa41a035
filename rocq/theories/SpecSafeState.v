(** Specification for C81: programs whose closures have state that are well typed, have valid
    arguments, or are given literals and numbers only.  No proofs. *)
From Coq Require Import String List.
From stdpp Require Import gmap.
From Verif Require Import Text Event Input Parse Selector Machine MachineState.
From Verif Require Import SpecText SpecAttr SpecParse SpecRender SpecTree SpecTransform SpecLaws SpecSafe.
From Verif Require Import SpecState SpecStop SpecNatural SpecNaturalState.
Local Open Scope nat_scope.
Local Open Scope list_scope.

(** ** Types, see [typed] *)

(** The closure is well typed for elements ([e]) or any streams, in whatever state it is called;
    likewise the closures that an iterator can give. *)
Inductive wtyped {W} : bool -> wpipeline W -> bool -> Prop :=
| WT_nil e : wtyped e [] e
| WT_cons e1 e2 e3 o p : wtyped_op e1 o e2 -> wtyped e2 p e3 -> wtyped e1 (o :: p) e3
with wtyped_op {W} : bool -> wop W -> bool -> Prop :=
| WT_apply e e' p : wtyped e p e' -> wtyped_op e (WApply p) e'
| WT_boxed e : wtyped_op e WIntoBoxed false
| WT_boxed_element : wtyped_op true WIntoBoxedElement true
| WT_either e e' other first p :
    wtyped e p e' -> wtyped_op e (WApplyEither first p other) (e' && other)
| WT_as_template e f : wtyped_op e (WApplyAsTemplate f) false
| WT_select e direct sel b :
    (forall k w, exists e', wtyped true (snd (b k w)) e') -> wtyped_op e (WSelect direct sel b) false
| WT_select_once e direct sel b :
    (forall w, exists e', wtyped true (snd (b w)) e') -> wtyped_op e (WSelectOnce direct sel b) false
| WT_remove e : wtyped_op e WRemove false
| WT_prepend e c : wtyped_op e (WPrepend c) false
| WT_append e c : wtyped_op e (WAppend c) false
| WT_replace e c : wtyped_op e (WReplace c) false
| WT_repeat e it :
    (forall k v b w, snd (it k v) = Some b -> exists e', wtyped e (snd (b w)) e') ->
    wtyped_op e (WRepeat it) false
| WT_repeat_or_else e it b0 :
    (forall k v b w, snd (it k v) = Some b -> exists e', wtyped e (snd (b w)) e') ->
    (forall w, exists e', wtyped e (snd (b0 w)) e') -> wtyped_op e (WRepeatOrElse it b0) false
| WT_sub_contents b :
    (forall w, exists e', wtyped false (snd (b w)) e') -> wtyped_op true (WSubselectContents b) true
| WT_subselect direct sel b :
    (forall k w, exists e', wtyped true (snd (b k w)) e') -> wtyped_op true (WSubselect direct sel b) true
| WT_subselect_once direct sel b :
    (forall w, exists e', wtyped true (snd (b w)) e') -> wtyped_op true (WSubselectOnce direct sel b) true
| WT_remove_contents : wtyped_op true WRemoveContents true
| WT_prepend_contents c : wtyped_op true (WPrependContents c) true
| WT_append_contents c : wtyped_op true (WAppendContents c) true
| WT_replace_contents c : wtyped_op true (WReplaceContents c) true
| WT_repeat_contents it :
    (forall k v b w, snd (it k v) = Some b -> exists e', wtyped false (snd (b w)) e') ->
    wtyped_op true (WRepeatContents it) true
| WT_repeat_contents_or_else it b0 :
    (forall k v b w, snd (it k v) = Some b -> exists e', wtyped false (snd (b w)) e') ->
    (forall w, exists e', wtyped true (snd (b0 w)) e') ->
    wtyped_op true (WRepeatContentsOrElse it b0) false
| WT_add_attribute name v : wtyped_op true (WAddAttribute name v) true
| WT_add_to_attribute name v sep : wtyped_op true (WAddToAttribute name v sep) true
| WT_replace_attribute name v : wtyped_op true (WReplaceAttribute name v) true
| WT_set_attribute name v : wtyped_op true (WSetAttribute name v) true
| WT_remove_attribute name : wtyped_op true (WRemoveAttribute name) true
| WT_add_class name : wtyped_op true (WAddClass name) true
| WT_remove_class name : wtyped_op true (WRemoveClass name) true
| WT_remove_id : wtyped_op true WRemoveId true
| WT_set_id name : wtyped_op true (WSetId name) true.

(** ** Arguments *)

Definition wop_content {W} (o : wop W) : option (wcontent W) :=
  match o with
  | WPrepend c | WAppend c | WReplace c
  | WPrependContents c | WAppendContents c | WReplaceContents c => Some c
  | _ => None
  end.
Definition wop_name {W} (o : wop W) : option (ident + identifier_error) :=
  match o with
  | WAddAttribute name _ | WAddToAttribute name _ _ | WReplaceAttribute name _
  | WSetAttribute name _ | WRemoveAttribute name | WAddClass name | WRemoveClass name
  | WSetId name => Some name
  | _ => None
  end.
Definition wop_selector {W} (o : wop W) : option (selector + stream_error) :=
  match o with
  | WSelect _ sel _ | WSelectOnce _ sel _ | WSubselect _ sel _ | WSubselectOnce _ sel _ => Some sel
  | _ => None
  end.
(** The content without state that is given, possibly in an [Ok]. *)
Fixpoint PlainIn {W} (c : wcontent W) (c0 : content) : Prop :=
  match c with
  | WCPlain c1 => c0 = c1
  | WCLive _ => False
  | WCOk c => PlainIn c c0
  end.

(** What the content given to the call can be, and what it can give before it fails.  The events of
    a stream are those it can give, one after the other until it ends; after [n] events they may be
    cut off, see [PossibleEvents]. *)
Definition WSupplied {W} (n : nat) (o : wop W) (evs : list event) : Prop :=
  exists c c0, wop_content o = Some c /\ PossibleContent n c c0 /\ ContentGives c0 (inl evs).
Definition WBreaksOff {W} (n : nat) (o : wop W) (evs : list event) : Prop :=
  exists c c0, wop_content o = Some c /\ PossibleContent n c c0 /\ ContentBreaks c0 evs.
Definition WNamesValid {W} (p : wpipeline W) : Prop :=
  forall o i, WOccurs p o -> wop_name o = Some (inl i) -> ValidName (id_str i).
(** See [ValidArgs]. *)
Definition WValidArgs {W} (n : nat) (p : wpipeline W) : Prop :=
  WNamesValid p /\
  (forall o evs, WOccurs p o -> WSupplied n o evs -> WellNested evs) /\
  (forall f w x y, WOccurs p (WApplyAsTemplate f) -> WellNested x -> snd (f w x) = inl y -> WellNested y) /\
  (forall o evs, WOccurs p o -> WBreaksOff n o evs -> exists rest, WellNested (evs ++ rest)).
(** All selectors are those of elements. *)
Definition WElements {W} (p : wpipeline W) : Prop :=
  forall o m, WOccurs p o -> wop_selector o = Some (inl m) -> ElementSelector m.

(** [e] is an error given to the call: of a selector, a name, a content, or one that a stream of
    the program or a function of the program gives in some state. *)
Definition WSuppliesError {W} (o : wop W) (e : stream_error) : Prop :=
  wop_selector o = Some (inr e) \/
  (exists i, wop_name o = Some (inr i) /\ e = SEIdentifier i) \/
  (exists c c0, wop_content o = Some c /\ PlainIn c c0 /\ ContentGives c0 (inr e)) \/
  (exists f i w, Puts o f /\ snd (f i w) = inr e) \/
  (exists f w x, o = WApplyAsTemplate f /\ snd (f w x) = inr e).
(** The event is in a template given to a call as content, or is given by a stream of the program
    or is in what a function of the program returns, in some state. *)
Definition WBrought {W} (p : wpipeline W) (ev : event) : Prop :=
  exists o, WOccurs p o /\
    ((exists c c0 evs, wop_content o = Some c /\ PlainIn c c0 /\ ContentGives c0 (inl evs) /\ In ev evs) \/
     (exists f i w, Puts o f /\ snd (f i w) = inl (Some ev)) \/
     (exists f w x y, o = WApplyAsTemplate f /\ snd (f w x) = inl y /\ In ev y)).

(** The call is made whenever [p] is run, see [AtTop]. *)
Inductive WAtTop {W} : wpipeline W -> wop W -> Prop :=
| WAtTop_here o p : In o p -> WAtTop p o
| WAtTop_apply q p o : In (WApply q) p -> WAtTop q o -> WAtTop p o
| WAtTop_either first q other p o : In (WApplyEither first q other) p -> WAtTop q o -> WAtTop p o.
(** See [Failing]. *)
Definition WFailing {W} (o : wop W) : Prop :=
  (exists e, wop_selector o = Some (inr e)) \/
  (exists i, wop_name o = Some (inr i)) \/
  (exists c c0 e, (o = WPrepend c \/ o = WAppend c \/ o = WReplace c) /\ PlainIn c c0 /\ ContentGives c0 (inr e)).

(** ** Literals and numbers, see [StaticCall] *)

Record WStaticCall {W} (o : wop W) : Prop := {
  wstatic_content : forall c, wop_content o = Some c -> exists c0, PlainIn c c0 /\ StaticContent c0;
  wstatic_name : forall o0 n, o = stateless_op o0 -> written_name o0 = Some n -> Writable (id_str n);
  wstatic_value : forall o0 v, o = stateless_op o0 -> WrittenValue o0 v -> StaticValue v;
  wstatic_selector : forall m, wop_selector o = Some (inl m) -> ElementSelector m;
  (* nothing is repeated: iterators have one item at most *)
  wstatic_repeat : forall it w, Asks o it -> snd (it 1 w) = None;
  wstatic_function : forall f, o <> WApplyAsTemplate f
}.
