(** Specification for C80: programs whose closures have state, and templates, that differ only in
    details which the program does not look at.  See [SpecNatural] for events, errors, contents and
    selectors that are alike.  No proofs. *)
From Coq Require Import String List.
From stdpp Require Import gmap.
From Verif Require Import Text Event Input Parse Selector Machine MachineState.
From Verif Require Import SpecTransform SpecLaws SpecState SpecStop SpecNatural.
Local Open Scope nat_scope.
Local Open Scope list_scope.

(** Answers of streams that are alike. *)
Inductive LikeAnswer (k : likeness) : stream_result -> stream_result -> Prop :=
| LA_answer r r' : LikeOption (LikeEvent k) r r' -> LikeAnswer k (inl r) (inl r')
| LA_failure err err' : LikeError k err err' -> LikeAnswer k (inr err) (inr err').

(** Contents.  [R] says which states of one program stand for which states of the other. *)
Inductive WLikeContent {W V} (k : likeness) (R : W -> V -> Prop) : wcontent W -> wcontent V -> Prop :=
| WLC_plain c c' : LikeContent k c c' -> WLikeContent k R (WCPlain c) (WCPlain c')
| WLC_live f g :
    (forall i w v, R w v -> R (fst (f i w)) (fst (g i v))) ->
    (forall i w v, R w v -> LikeAnswer k (snd (f i w)) (snd (g i v))) ->
    WLikeContent k R (WCLive f) (WCLive g)
| WLC_ok c c' : WLikeContent k R c c' -> WLikeContent k R (WCOk c) (WCOk c').

(** The same calls, with arguments that are alike.  Closures that are called in states related by
    [R] leave states related by [R] and make calls that are alike in turn. *)
Inductive WLike {W V} (k : likeness) (R : W -> V -> Prop) : wpipeline W -> wpipeline V -> Prop :=
| WL_nil : WLike k R [] []
| WL_cons o o' p q : WLikeOp k R o o' -> WLike k R p q -> WLike k R (o :: p) (o' :: q)
with WLikeOp {W V} (k : likeness) (R : W -> V -> Prop) : wop W -> wop V -> Prop :=
| WL_apply p q : WLike k R p q -> WLikeOp k R (WApply p) (WApply q)
| WL_boxed : WLikeOp k R WIntoBoxed WIntoBoxed
| WL_boxed_element : WLikeOp k R WIntoBoxedElement WIntoBoxedElement
| WL_either first p q other :
    WLike k R p q -> WLikeOp k R (WApplyEither first p other) (WApplyEither first q other)
| WL_as_template f g :
    (forall w v evs evs', R w v -> Forall2 (LikeEvent k) evs evs' -> R (fst (f w evs)) (fst (g v evs'))) ->
    (forall w v evs evs', R w v -> Forall2 (LikeEvent k) evs evs' ->
       LikeResult k (snd (f w evs)) (snd (g v evs'))) ->
    WLikeOp k R (WApplyAsTemplate f) (WApplyAsTemplate g)
| WL_select direct sel sel' b c :
    LikeSelector k sel sel' -> (forall i, WLikeOnce k R (b i) (c i)) ->
    WLikeOp k R (WSelect direct sel b) (WSelect direct sel' c)
| WL_select_once direct sel sel' b c :
    LikeSelector k sel sel' -> WLikeOnce k R b c ->
    WLikeOp k R (WSelectOnce direct sel b) (WSelectOnce direct sel' c)
| WL_remove : WLikeOp k R WRemove WRemove
| WL_prepend c c' : WLikeContent k R c c' -> WLikeOp k R (WPrepend c) (WPrepend c')
| WL_append c c' : WLikeContent k R c c' -> WLikeOp k R (WAppend c) (WAppend c')
| WL_replace c c' : WLikeContent k R c c' -> WLikeOp k R (WReplace c) (WReplace c')
| WL_repeat it jt : WLikeIter k R it jt -> WLikeOp k R (WRepeat it) (WRepeat jt)
| WL_repeat_or_else it jt b c :
    WLikeIter k R it jt -> WLikeOnce k R b c ->
    WLikeOp k R (WRepeatOrElse it b) (WRepeatOrElse jt c)
| WL_sub_contents b c :
    WLikeOnce k R b c -> WLikeOp k R (WSubselectContents b) (WSubselectContents c)
| WL_subselect direct sel sel' b c :
    LikeSelector k sel sel' -> (forall i, WLikeOnce k R (b i) (c i)) ->
    WLikeOp k R (WSubselect direct sel b) (WSubselect direct sel' c)
| WL_subselect_once direct sel sel' b c :
    LikeSelector k sel sel' -> WLikeOnce k R b c ->
    WLikeOp k R (WSubselectOnce direct sel b) (WSubselectOnce direct sel' c)
| WL_remove_contents : WLikeOp k R WRemoveContents WRemoveContents
| WL_prepend_contents c c' : WLikeContent k R c c' -> WLikeOp k R (WPrependContents c) (WPrependContents c')
| WL_append_contents c c' : WLikeContent k R c c' -> WLikeOp k R (WAppendContents c) (WAppendContents c')
| WL_replace_contents c c' : WLikeContent k R c c' -> WLikeOp k R (WReplaceContents c) (WReplaceContents c')
| WL_repeat_contents it jt :
    WLikeIter k R it jt -> WLikeOp k R (WRepeatContents it) (WRepeatContents jt)
| WL_repeat_contents_or_else it jt b c :
    WLikeIter k R it jt -> WLikeOnce k R b c ->
    WLikeOp k R (WRepeatContentsOrElse it b) (WRepeatContentsOrElse jt c)
(* calls that change attributes have no closures, see [SpecNatural.Like] *)
| WL_attribute o o' f g :
    Changes o f -> Changes o' g -> (forall a a', A k a a' -> A k (f a) (g a')) ->
    (o = ORemoveId <-> o' = ORemoveId) -> WLikeOp k R (stateless_op o) (stateless_op o')
| WL_bad_name o o' err :
    BadName o err -> BadName o' err -> WLikeOp k R (stateless_op o) (stateless_op o')
with WLikeOnce {W V} (k : likeness) (R : W -> V -> Prop) : once W -> once V -> Prop :=
| WL_once b c :
    (forall w v, R w v -> R (fst (b w)) (fst (c v))) ->
    (forall w v, R w v -> WLike k R (snd (b w)) (snd (c v))) -> WLikeOnce k R b c
with WLikeIter {W V} (k : likeness) (R : W -> V -> Prop) : iterator W -> iterator V -> Prop :=
| WL_iter it jt :
    (forall i w v, R w v -> R (fst (it i w)) (fst (jt i v))) ->
    (forall i w v, R w v -> WLikeItem k R (snd (it i w)) (snd (jt i v))) -> WLikeIter k R it jt
with WLikeItem {W V} (k : likeness) (R : W -> V -> Prop) : option (once W) -> option (once V) -> Prop :=
| WL_none : WLikeItem k R None None
| WL_some b c : WLikeOnce k R b c -> WLikeItem k R (Some b) (Some c).

(** ** Programs that look at elements only *)

(** The calls of a program, also those that closures make, at any time and in any world. *)
Inductive WOccurs {W} : list (wop W) -> wop W -> Prop :=
| WOccurs_here p o : In o p -> WOccurs p o
| WOccurs_deeper p a q o : In a p -> Makes a q -> WOccurs q o -> WOccurs p o.
Definition CanMake {W} (b : once W) (o : wop W) : Prop := exists w, WOccurs (snd (b w)) o.

(** The selector given to a call. *)
Inductive Selects {W} : wop W -> selector -> Prop :=
| Sels_select direct m b : Selects (WSelect direct (inl m) b) m
| Sels_select_once direct m b : Selects (WSelectOnce direct (inl m) b) m
| Sels_subselect direct m b : Selects (WSubselect direct (inl m) b) m
| Sels_subselect_once direct m b : Selects (WSubselectOnce direct (inl m) b) m.

(** No call is [apply_as_template]. *)
Definition WNoFunctions {W} (b : once W) : Prop := forall f, ~ CanMake b (WApplyAsTemplate f).
(** All selectors are those of elements: they match tags only. *)
Definition WElementSelectors {W} (b : once W) : Prop :=
  forall o m, CanMake b o -> Selects o m -> ElementSelector m.
(** All selectors are those of the library. *)
Definition WLibrarySelectors {W} (b : once W) : Prop :=
  forall o m, CanMake b o -> Selects o m -> forall f, m <> SelCustom f.
(** A call about the attribute named [n]. *)
Definition WAbout {W} (o : wop W) (n : str) : Prop := exists o', o = stateless_op o' /\ About o' n.

(** ** Renamed tags, see [SpecNatural] *)

Definition rename_live {W} (f : str -> str) (g : live W) : live W := fun i w =>
  let '(w', r) := g i w in
  (w', match r with
       | inl ev => inl (option_map (rename_event f) ev)
       | inr err => inr (rename_error f err)
       end).
Fixpoint wrename_content {W} (f : str -> str) (c : wcontent W) : wcontent W :=
  match c with
  | WCPlain c => WCPlain (rename_content f c)
  | WCLive g => WCLive (rename_live f g)
  | WCOk c => WCOk (wrename_content f c)
  end.
Fixpoint wrename_op {W} (f : str -> str) (o : wop W) : wop W :=
  let once (b : W -> W * list (wop W)) := fun w =>
    let '(w', p) := b w in (w', map (wrename_op f) p) in
  let iter (it : nat -> W -> W * option (W -> W * list (wop W))) := fun i w =>
    let '(w', r) := it i w in
    (w', match r with
         | Some b => Some (fun w => let '(w', p) := b w in (w', map (wrename_op f) p))
         | None => None
         end) in
  match o with
  | WApply p => WApply (map (wrename_op f) p)
  | WApplyEither first p other => WApplyEither first (map (wrename_op f) p) other
  | WSelect direct sel b => WSelect direct (rename_argument f sel) (fun i => once (b i))
  | WSelectOnce direct sel b => WSelectOnce direct (rename_argument f sel) (once b)
  | WPrepend c => WPrepend (wrename_content f c)
  | WAppend c => WAppend (wrename_content f c)
  | WReplace c => WReplace (wrename_content f c)
  | WRepeat it => WRepeat (iter it)
  | WRepeatOrElse it b => WRepeatOrElse (iter it) (once b)
  | WSubselectContents b => WSubselectContents (once b)
  | WSubselect direct sel b => WSubselect direct (rename_argument f sel) (fun i => once (b i))
  | WSubselectOnce direct sel b => WSubselectOnce direct (rename_argument f sel) (once b)
  | WPrependContents c => WPrependContents (wrename_content f c)
  | WAppendContents c => WAppendContents (wrename_content f c)
  | WReplaceContents c => WReplaceContents (wrename_content f c)
  | WRepeatContents it => WRepeatContents (iter it)
  | WRepeatContentsOrElse it b => WRepeatContentsOrElse (iter it) (once b)
  | o => o
  end.
Definition rename_once {W} (f : str -> str) (b : once W) : once W := fun w =>
  let '(w', p) := b w in (w', map (wrename_op f) p).
