(** Templates as trees, without reference to the model's functions. *)
From Coq Require Import String List NArith.
Import ListNotations.
From Verif Require Import Text Event SpecText SpecAttr SpecParse.

(** A leaf is any event but a tag that opens or closes a scope; an element has a start tag
    with its attributes, children, and the name in its closing tag. *)
Inductive tree :=
| Leaf (ev : event)
| Elem (t : ident) (a : attributes) (kids : list tree) (c : ident).

Fixpoint tree_events (x : tree) : list event :=
  match x with
  | Leaf ev => [ev]
  | Elem t a kids c => OpeningTag t a :: flat_map tree_events kids ++ [ClosingTag c]
  end.
Definition events (F : list tree) : list event := flat_map tree_events F.

Definition ValidTag (t : ident) : Prop := ValidName (id_str t).
Definition ValidEvent (ev : event) : Prop :=
  match ev with
  | OpeningTag t a | SelfClosedTag t a | VoidTag t a => ValidTag t /\ ValidAttrs a
  | ClosingTag t => ValidTag t
  | Noop | Doctype _ | Comment _ | Data _ | RawData _ => True
  end.

(** The two tags of every element have the same name up to case, and all names are
    identifiers. *)
Inductive ProperTree : tree -> Prop :=
| P_leaf ev : is_leaf ev -> ValidEvent ev -> ProperTree (Leaf ev)
| P_elem t a kids c :
    ValidTag t -> ValidAttrs a -> SameName (id_str t) (id_str c) ->
    (forall x, In x kids -> ProperTree x) -> ProperTree (Elem t a kids c).
Definition Proper (F : list tree) : Prop := forall x, In x F -> ProperTree x.

(** [evs] are the events of a forest of matching tags. *)
Definition WellNested (evs : list event) : Prop := exists F, Proper F /\ evs = events F.

(** The first event of a tree: the start tag of an element. *)
Definition start (x : tree) : event :=
  match x with
  | Leaf ev => ev
  | Elem t a _ _ => OpeningTag t a
  end.

(** [x] is an element: void, self-closed, or with a closing tag. *)
Definition IsElement (x : tree) : Prop :=
  match start x with
  | OpeningTag _ _ | SelfClosedTag _ _ | VoidTag _ _ => True
  | _ => False
  end.
