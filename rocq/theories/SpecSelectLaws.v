(** When selections can be rearranged. *)
From Coq Require Import String ZArith List Bool.
From Verif Require Import Text Event Input Parse Selector Machine Template.
From Verif Require Import SpecText SpecAttr SpecParse SpecTree SpecTransform SpecOps SpecLaws.

(** Nothing in these events matches. *)
Definition Without_match (m : selector) (evs : list event) : Prop :=
  forall ev, In ev evs -> matches m ev = false.

(** What the builder makes of a matching element is one element that still matches. *)
Definition Stays (m : selector) (b : nat -> pipeline) : Prop :=
  forall k x out, ProperTree x -> IsElement x -> matches m (start x) = true ->
    Gives (tree_events x) (b k) (inl out) ->
    exists y, out = tree_events y /\ ProperTree y /\ IsElement y /\ matches m (start y) = true.

(** The builder does not fail on matching elements. *)
Definition Succeeds (m : selector) (b : nat -> pipeline) : Prop :=
  forall k x, ProperTree x -> IsElement x -> matches m (start x) = true ->
    exists out, Gives (tree_events x) (b k) (inl out).

(** What the builder makes of an element for [m] in which nothing matches [m'] contains nothing
    that matches [m'] either. *)
Definition Avoids (m m' : selector) (b : nat -> pipeline) : Prop :=
  forall k x out, ProperTree x -> IsElement x -> matches m (start x) = true ->
    Without_match m' (tree_events x) -> Gives (tree_events x) (b k) (inl out) -> Without_match m' out.

(** No match of [m'] is, or is inside, a match of [m]. *)
Definition Apart (m m' : selector) (F : list tree) : Prop :=
  forall path x, At F path x -> matches m (start x) = true -> Without_match m' (tree_events x).

(** Changes of attributes named [n] do not matter to the selector. *)
Definition Unrelated (m : selector) (n : str) : Prop :=
  match m with
  | SelId _ => ~ SameName n (lit "id")
  | SelTag _ => True
  | SelClass _ | SelClasses _ => ~ SameName n (lit "class")
  | SelStatic _ => ~ SameName n (lit "id") /\ ~ SameName n (lit "class")
  | SelCustom _ => False
  end.

(** The calls of [p] change attributes that do not matter to the selector. *)
Definition UnrelatedCalls (m : selector) (p : pipeline) : Prop :=
  forall o, In o p -> exists n, About o n /\ Unrelated m n /\
    forall i, op_name o = Some (inl i) -> ValidName (id_str i).

(** The tag of an element. *)
Definition tag_of (x : tree) : option ident :=
  match start x with
  | OpeningTag t _ | SelfClosedTag t _ | VoidTag t _ => Some t
  | _ => None
  end.
Definition IsVoid (x : tree) : Prop := match start x with VoidTag _ _ => True | _ => False end.
