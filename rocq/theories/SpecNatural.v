(** Specification for C73: templates and programs that differ only in details which the
    program does not look at.  No proofs. *)
From Coq Require Import String List.
From stdpp Require Import base.
From Verif Require Import Text Event Input Parse Selector Machine SpecTransform.
Local Open Scope list_scope.

(** ** Events

    What is allowed to differ is given by three relations: [T] for the names of tags, [A] for
    the attributes of a tag, and [X] for texts, comments, document types and raw text. *)
Record likeness := Likeness
  { T : ident -> ident -> Prop;
    A : attributes -> attributes -> Prop;
    X : event -> event -> Prop }.

(** Names that are the same in one template are the same in the other. *)
Definition Coherent (k : likeness) : Prop :=
  forall s s' t t', T k s s' -> T k t t' -> ident_eqb s t = ident_eqb s' t'.

Definition IsText (e : event) : Prop :=
  match e with Doctype _ | Comment _ | Data _ | RawData _ => True | _ => False end.

Inductive LikeEvent (k : likeness) : event -> event -> Prop :=
| LE_noop : LikeEvent k Noop Noop
| LE_text e e' : IsText e -> IsText e' -> X k e e' -> LikeEvent k e e'
| LE_open t t' a a' : T k t t' -> A k a a' -> LikeEvent k (OpeningTag t a) (OpeningTag t' a')
| LE_self t t' a a' : T k t t' -> A k a a' -> LikeEvent k (SelfClosedTag t a) (SelfClosedTag t' a')
| LE_void t t' a a' : T k t t' -> A k a a' -> LikeEvent k (VoidTag t a) (VoidTag t' a')
| LE_close t t' : T k t t' -> LikeEvent k (ClosingTag t) (ClosingTag t').

(** ** Errors: the tags they name and the events they show differ in the same way. *)
Inductive LikeOption {B} (R : B -> B -> Prop) : option B -> option B -> Prop :=
| LO_none : LikeOption R None None
| LO_some x y : R x y -> LikeOption R (Some x) (Some y).
Inductive LikeError (k : likeness) : stream_error -> stream_error -> Prop :=
| LR_unexpected t t' : T k t t' ->
    LikeError k (SEAssertion (MUnexpectedClosingTag t)) (SEAssertion (MUnexpectedClosingTag t'))
| LR_open e e' : LikeOption (LikeEvent k) e e' ->
    LikeError k (SEAssertion (MExpectedOpeningTag e)) (SEAssertion (MExpectedOpeningTag e'))
| LR_close e e' t t' : LikeOption (LikeEvent k) e e' -> T k t t' ->
    LikeError k (SEAssertion (MExpectedClosingTag e t)) (SEAssertion (MExpectedClosingTag e' t'))
| LR_same err : (forall m, err <> SEAssertion m) -> LikeError k err err.

Inductive LikeResult (k : likeness) : list event + stream_error -> list event + stream_error -> Prop :=
| LR_ok evs evs' : Forall2 (LikeEvent k) evs evs' -> LikeResult k (inl evs) (inl evs')
| LR_error err err' : LikeError k err err' -> LikeResult k (inr err) (inr err').

(** ** Contents *)

(** contents that are one text *)
Inductive GivesText : content -> data -> Prop :=
| GT_data d : GivesText (CData d) d
| GT_value v : GivesText (CValue v) v
| GT_static s : GivesText (CStatic s) (enc_from_unencoded_static_str s)
| GT_int z : GivesText (CInt z) (enc_from_encoded_tendril (decimal_z z)).

Inductive LikeContent (k : likeness) : content -> content -> Prop :=
| LC_template evs evs' : Forall2 (LikeEvent k) evs evs' -> LikeContent k (CTemplate evs) (CTemplate evs')
| LC_text c c' d d' : GivesText c d -> GivesText c' d' -> X k (Data d) (Data d') -> LikeContent k c c'
| LC_stream evs evs' stop stop' :
    Forall2 (LikeEvent k) evs evs' -> LikeOption (LikeError k) stop stop' ->
    LikeContent k (CStream evs stop) (CStream evs' stop')
| LC_ok c c' : LikeContent k c c' -> LikeContent k (CResult (inl c)) (CResult (inl c'))
| LC_err err err' : LikeError k err err' -> LikeContent k (CResult (inr err)) (CResult (inr err')).

(** ** Programs *)

(** Selectors that decide alike. *)
Inductive LikeSelector (k : likeness) : selector + stream_error -> selector + stream_error -> Prop :=
| LS_ok m m' : (forall e e', LikeEvent k e e' -> matches m e = matches m' e') ->
    LikeSelector k (inl m) (inl m')
| LS_err err err' : LikeError k err err' -> LikeSelector k (inr err) (inr err').

(** The change of the attributes that a call makes. *)
Inductive Changes : op -> (attributes -> attributes) -> Prop :=
| Ch_add n v : Changes (OAddAttribute (inl n) v) (fun a => add_attribute a n v)
| Ch_add_to n v sep : Changes (OAddToAttribute (inl n) v sep) (fun a => add_to_attribute a n v sep)
| Ch_replace n v : Changes (OReplaceAttribute (inl n) v) (fun a => replace_attribute a n (Some v))
| Ch_set n v : Changes (OSetAttribute (inl n) v) (fun a => set_attribute a n v)
| Ch_remove n : Changes (ORemoveAttribute (inl n)) (fun a => remove_attribute a n)
| Ch_add_class c n : static_ident (lit "class") = Some n ->
    Changes (OAddClass (inl c)) (fun a => add_to_attribute a n (ident_into_value c)
                                          (enc_from_unencoded_static_str (lit " ")))
| Ch_remove_class c : Changes (ORemoveClass (inl c)) (fun a => remove_class a c)
| Ch_remove_id n : static_ident (lit "id") = Some n ->
    Changes ORemoveId (fun a => remove_attribute a n)
| Ch_set_id i n : static_ident (lit "id") = Some n ->
    Changes (OSetId (inl i)) (fun a => set_attribute a n (Some (ident_into_value i))).
(** The error of a call that changes attributes, for a name that is not an identifier. *)
Inductive BadName : op -> identifier_error -> Prop :=
| BN_add v err : BadName (OAddAttribute (inr err) v) err
| BN_add_to v sep err : BadName (OAddToAttribute (inr err) v sep) err
| BN_replace v err : BadName (OReplaceAttribute (inr err) v) err
| BN_set v err : BadName (OSetAttribute (inr err) v) err
| BN_remove err : BadName (ORemoveAttribute (inr err)) err
| BN_add_class err : BadName (OAddClass (inr err)) err
| BN_remove_class err : BadName (ORemoveClass (inr err)) err
| BN_set_id err : BadName (OSetId (inr err)) err.

(** The same calls, with arguments that are alike.  Calls that change attributes may be
    different calls ([ORemoveId], which cannot fail, only together with itself), as long as
    the changes of attributes that are alike are alike. *)
Inductive Like (k : likeness) : pipeline -> pipeline -> Prop :=
| L_nil : Like k [] []
| L_cons o o' p q : LikeOp k o o' -> Like k p q -> Like k (o :: p) (o' :: q)
with LikeOp (k : likeness) : op -> op -> Prop :=
| L_apply p q : Like k p q -> LikeOp k (OApply p) (OApply q)
| L_boxed : LikeOp k OIntoBoxed OIntoBoxed
| L_boxed_element : LikeOp k OIntoBoxedElement OIntoBoxedElement
| L_either first p q other : Like k p q -> LikeOp k (OApplyEither first p other) (OApplyEither first q other)
| L_as_template f g :
    (forall evs evs', Forall2 (LikeEvent k) evs evs' -> LikeResult k (f evs) (g evs')) ->
    LikeOp k (OApplyAsTemplate f) (OApplyAsTemplate g)
| L_select direct sel sel' b c :
    LikeSelector k sel sel' -> (forall i, Like k (b i) (c i)) ->
    LikeOp k (OSelect direct sel b) (OSelect direct sel' c)
| L_select_once direct sel sel' p q :
    LikeSelector k sel sel' -> Like k p q ->
    LikeOp k (OSelectOnce direct sel p) (OSelectOnce direct sel' q)
| L_remove : LikeOp k ORemove ORemove
| L_prepend c c' : LikeContent k c c' -> LikeOp k (OPrepend c) (OPrepend c')
| L_append c c' : LikeContent k c c' -> LikeOp k (OAppend c) (OAppend c')
| L_replace c c' : LikeContent k c c' -> LikeOp k (OReplace c) (OReplace c')
| L_repeat bs cs : LikeAll k bs cs -> LikeOp k (ORepeat bs) (ORepeat cs)
| L_repeat_or_else bs cs p q :
    LikeAll k bs cs -> Like k p q -> LikeOp k (ORepeatOrElse bs p) (ORepeatOrElse cs q)
| L_sub_contents p q : Like k p q -> LikeOp k (OSubselectContents p) (OSubselectContents q)
| L_subselect direct sel sel' b c :
    LikeSelector k sel sel' -> (forall i, Like k (b i) (c i)) ->
    LikeOp k (OSubselect direct sel b) (OSubselect direct sel' c)
| L_subselect_once direct sel sel' p q :
    LikeSelector k sel sel' -> Like k p q ->
    LikeOp k (OSubselectOnce direct sel p) (OSubselectOnce direct sel' q)
| L_remove_contents : LikeOp k ORemoveContents ORemoveContents
| L_prepend_contents c c' : LikeContent k c c' -> LikeOp k (OPrependContents c) (OPrependContents c')
| L_append_contents c c' : LikeContent k c c' -> LikeOp k (OAppendContents c) (OAppendContents c')
| L_replace_contents c c' : LikeContent k c c' -> LikeOp k (OReplaceContents c) (OReplaceContents c')
| L_repeat_contents bs cs : LikeAll k bs cs -> LikeOp k (ORepeatContents bs) (ORepeatContents cs)
| L_repeat_contents_or_else bs cs p q :
    LikeAll k bs cs -> Like k p q ->
    LikeOp k (ORepeatContentsOrElse bs p) (ORepeatContentsOrElse cs q)
| L_attribute o o' f g :
    Changes o f -> Changes o' g -> (forall a a', A k a a' -> A k (f a) (g a')) ->
    (o = ORemoveId <-> o' = ORemoveId) -> LikeOp k o o'
| L_bad_name o o' err : BadName o err -> BadName o' err -> LikeOp k o o'
with LikeAll (k : likeness) : list pipeline -> list pipeline -> Prop :=
| L_none : LikeAll k [] []
| L_more p q bs cs : Like k p q -> LikeAll k bs cs -> LikeAll k (p :: bs) (q :: cs).

(** ** Three cases *)

(** Only texts differ, in a way given by [X0]. *)
Definition OnlyTexts (X0 : event -> event -> Prop) : likeness := Likeness eq eq X0.

(** Only attributes differ whose names are hidden. *)
Definition shown (hide : str -> bool) (a : attributes) : attributes :=
  List.filter (fun x => negb (hide (id_str (a_name x)))) a.
Definition OnlyAttributes (hide : str -> bool) : likeness :=
  Likeness eq (fun a b => shown hide a = shown hide b) eq.
(** The letter case does not matter for being hidden. *)
Definition CaseBlind (hide : str -> bool) : Prop :=
  forall a b, identifier_eq a b = true -> hide a = hide b.

(** Tags are renamed by [f], which keeps different names different. *)
Definition Renames (f : str -> str) : Prop :=
  forall a b, identifier_eq (f a) (f b) = identifier_eq a b.
Definition rename_ident (f : str -> str) (i : ident) : ident := Ident (Actual (f (id_str i))).
Definition rename_event (f : str -> str) (e : event) : event :=
  match e with
  | OpeningTag t a => OpeningTag (rename_ident f t) a
  | ClosingTag t => ClosingTag (rename_ident f t)
  | SelfClosedTag t a => SelfClosedTag (rename_ident f t) a
  | VoidTag t a => VoidTag (rename_ident f t) a
  | e => e
  end.
Definition rename_error (f : str -> str) (err : stream_error) : stream_error :=
  match err with
  | SEAssertion (MUnexpectedClosingTag t) => SEAssertion (MUnexpectedClosingTag (rename_ident f t))
  | SEAssertion (MExpectedOpeningTag e) => SEAssertion (MExpectedOpeningTag (option_map (rename_event f) e))
  | SEAssertion (MExpectedClosingTag e t) =>
      SEAssertion (MExpectedClosingTag (option_map (rename_event f) e) (rename_ident f t))
  | err => err
  end.
Definition rename_result (f : str -> str) (r : list event + stream_error) : list event + stream_error :=
  match r with inl evs => inl (map (rename_event f) evs) | inr err => inr (rename_error f err) end.
Fixpoint rename_content (f : str -> str) (c : content) : content :=
  match c with
  | CTemplate evs => CTemplate (map (rename_event f) evs)
  | CStream evs stop => CStream (map (rename_event f) evs) (option_map (rename_error f) stop)
  | CResult (inl c) => CResult (inl (rename_content f c))
  | CResult (inr err) => CResult (inr (rename_error f err))
  | c => c
  end.
Definition rename_selector (f : str -> str) (m : selector) : selector :=
  match m with
  | SelTag t => SelTag (rename_ident f t)
  | SelStatic s => SelStatic (Static (option_map f (st_tag s)) (st_id s) (st_classes s))
  | m => m
  end.
Definition rename_argument (f : str -> str) (sel : selector + stream_error) : selector + stream_error :=
  match sel with inl m => inl (rename_selector f m) | inr err => inr (rename_error f err) end.
Fixpoint rename_op (f : str -> str) (o : op) : op :=
  match o with
  | OApply p => OApply (map (rename_op f) p)
  | OApplyEither first p other => OApplyEither first (map (rename_op f) p) other
  | OSelect direct sel b => OSelect direct (rename_argument f sel) (fun i => map (rename_op f) (b i))
  | OSelectOnce direct sel p => OSelectOnce direct (rename_argument f sel) (map (rename_op f) p)
  | OPrepend c => OPrepend (rename_content f c)
  | OAppend c => OAppend (rename_content f c)
  | OReplace c => OReplace (rename_content f c)
  | ORepeat bs => ORepeat (map (map (rename_op f)) bs)
  | ORepeatOrElse bs p => ORepeatOrElse (map (map (rename_op f)) bs) (map (rename_op f) p)
  | OSubselectContents p => OSubselectContents (map (rename_op f) p)
  | OSubselect direct sel b =>
      OSubselect direct (rename_argument f sel) (fun i => map (rename_op f) (b i))
  | OSubselectOnce direct sel p => OSubselectOnce direct (rename_argument f sel) (map (rename_op f) p)
  | OPrependContents c => OPrependContents (rename_content f c)
  | OAppendContents c => OAppendContents (rename_content f c)
  | OReplaceContents c => OReplaceContents (rename_content f c)
  | ORepeatContents bs => ORepeatContents (map (map (rename_op f)) bs)
  | ORepeatContentsOrElse bs p =>
      ORepeatContentsOrElse (map (map (rename_op f)) bs) (map (rename_op f) p)
  | o => o
  end.

(** Programs using the selectors of the library only. *)
Definition LibrarySelectors (p : pipeline) : Prop :=
  forall o m, Occurs p o -> op_selector o = Some (inl m) -> forall f, m <> SelCustom f.
(** Programs without [apply_as_template]. *)
Definition NoFunctions (p : pipeline) : Prop := forall o, Occurs p o -> op_function o = None.
