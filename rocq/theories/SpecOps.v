(** What single API calls do, in terms of trees. *)
From Coq Require Import String ZArith List.
From stdpp Require Import gmap.
From Verif Require Import Text Event Input Parse Selector Machine Template.
From Verif Require Import SpecText SpecAttr SpecParse SpecTree SpecTransform.
From Verif Require Api.

(** The events a pipeline can be applied to: those of one element if [elem], of any
    template otherwise. *)
Definition Selection (elem : bool) (evs : list event) : Prop :=
  if elem then exists x, ProperTree x /\ IsElement x /\ evs = tree_events x else WellNested evs.

(** The result [r] put between [pre] and [post]; an error stays an error. *)
Definition around (pre : list event) (r : list event + stream_error) (post : list event)
  : list event + stream_error :=
  match r with inl r => inl (pre ++ r ++ post) | inr e => inr e end.

(** The children of the element [x], and the tags around them once it is opened: a
    self-closed element is expanded.  A void element has no inside. *)
Inductive Inside : tree -> event -> list tree -> event -> Prop :=
| In_elem t a kids c : Inside (Elem t a kids c) (OpeningTag t a) kids (ClosingTag c)
| In_self t a : Inside (Leaf (SelfClosedTag t a)) (OpeningTag t a) [] (ClosingTag t).

(** The elements [x] with attributes [a] and [y] with attributes [a'] are otherwise the
    same. *)
Inductive Reattr : tree -> attributes -> tree -> attributes -> Prop :=
| R_elem t a a' kids c : Reattr (Elem t a kids c) a (Elem t a' kids c) a'
| R_self t a a' : Reattr (Leaf (SelfClosedTag t a)) a (Leaf (SelfClosedTag t a')) a'
| R_void t a a' : Reattr (Leaf (VoidTag t a)) a (Leaf (VoidTag t a')) a'.

(** Calls that are about attributes. *)
Definition attribute_op (o : op) : Prop :=
  match o with
  | OAddAttribute _ _ | OAddToAttribute _ _ _ | OReplaceAttribute _ _ | OSetAttribute _ _
  | ORemoveAttribute _ | OAddClass _ | ORemoveClass _ | ORemoveId | OSetId _ => True
  | _ => False
  end.

(** [ContentsOf o o']: the call [o] is to do to the children of an element what [o'] does
    to a template. *)
Inductive ContentsOf : op -> op -> Prop :=
| CO_contents p : ContentsOf (OSubselectContents p) (OApply p)
| CO_select d m b : ContentsOf (OSubselect d (inl m) b) (OSelect d (inl m) b)
| CO_select_once d m p : ContentsOf (OSubselectOnce d (inl m) p) (OSelectOnce d (inl m) p)
| CO_remove : ContentsOf ORemoveContents ORemove
| CO_prepend c : ContentsOf (OPrependContents c) (OPrepend c)
| CO_append c : ContentsOf (OAppendContents c) (OAppend c)
| CO_replace c : ContentsOf (OReplaceContents c) (OReplace c)
| CO_repeat bs : ContentsOf (ORepeatContents bs) (ORepeat bs).

(** ** Arguments a program can have *)

Definition Nothing : list event -> Prop := fun _ => False.
(** The names in [p] are identifiers, its templates are obtainable, and its functions make
    their results from their argument and obtainable templates. *)
Definition ObtainableArgs (p : pipeline) : Prop :=
  NamesValid p /\
  (forall o x, Occurs p o -> Supplied o x -> Obtainable Nothing x) /\
  (forall o f x y, Occurs p o -> op_function o = Some f -> f x = inl y ->
     Obtainable (fun z => z = x) y) /\
  (forall o x, Occurs p o -> BreaksOff o x -> exists rest, Obtainable Nothing (x ++ rest)).

(** ** Attributes *)

Definition attrs_of (x : tree) : option attributes :=
  match start x with
  | OpeningTag _ a | SelfClosedTag _ a | VoidTag _ a => Some a
  | _ => None
  end.

(** The methods that add, or set, the attribute [name] to [v]. *)
Inductive Adds : op -> Api.identifier_arg -> option value -> Prop :=
| Adds_any name v : Adds (Api.add_attribute name v) name (option_map Api.into_value v)
| Adds_value name v : Adds (Api.add_attribute_with_value name v) name (Some (Api.into_value v))
| Adds_empty name : Adds (Api.add_empty_attribute name) name None.
Inductive Sets : op -> Api.identifier_arg -> option value -> Prop :=
| Sets_any name v : Sets (Api.set_attribute name v) name (option_map Api.into_value v)
| Sets_value name v : Sets (Api.set_attribute_with_value name v) name (Some (Api.into_value v))
| Sets_empty name : Sets (Api.set_empty_attribute name) name None.

(** The argument is the identifier [n]. *)
Definition Names (name : Api.identifier_arg) (n : ident) : Prop :=
  Api.into_identifier name = inl n /\ ValidName (id_str n).

(** ** Conditional application *)

(** In every pipeline the call [o] can be replaced by the calls [q]. *)
Definition Same (o : op) (q : pipeline) : Prop :=
  forall e p1 p2 e' evs r, Selection e evs -> typed e (p1 ++ o :: p2) e' -> ValidArgs (p1 ++ o :: p2) ->
  (Gives evs (p1 ++ o :: p2) r <-> Gives evs (p1 ++ q ++ p2) r).
