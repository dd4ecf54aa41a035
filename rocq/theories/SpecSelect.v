(** What a selector string denotes and which elements a selector describes. *)
From Coq Require Import String List NArith.
Import ListNotations.
From Verif Require Import Text Event Selector SpecText SpecAttr.
Open Scope N_scope.

(** [words] separated by [sep] *)
Fixpoint separated (sep : char) (w : str) (ws : list str) : str :=
  match ws with
  | [] => w
  | w' :: ws' => w ++ sep :: separated sep w' ws'
  end.

(** [s] is [tag][#id][.class]* with an empty tag meaning no tag.  The tag contains neither
    hash nor dot, the id no dot, a class no dot. *)
Inductive ShapeClasses : str -> list str -> Prop :=
| shape_no_classes : ShapeClasses [] []
| shape_classes c cs :
    (forall d, In d (c :: cs) -> ~ In 46 d) ->
    ShapeClasses (46 :: separated 46 c cs) (c :: cs).
Inductive ShapeRest : str -> option str -> list str -> Prop :=
| shape_id i r classes :
    ~ In 46 i -> ShapeClasses r classes -> ShapeRest (35 :: i ++ r) (Some i) classes
| shape_no_id r classes :
    ShapeClasses r classes -> ShapeRest r None classes.
Inductive Shape (s : str) : option str -> option str -> list str -> Prop :=
| shape t rest tag id classes :
    s = t ++ rest ->
    ~ In 35 t -> ~ In 46 t ->
    (t = [] /\ tag = None \/ t <> [] /\ tag = Some t) ->
    ShapeRest rest id classes ->
    Shape s tag id classes.

Definition OptValid (o : option str) : Prop := forall s, o = Some s -> ValidName s.

(** The error [e] names the first offending part of the string. *)
Inductive ShapeError (tag id : option str) (classes : list str) : static_error -> Prop :=
| SE_none : tag = None -> id = None -> classes = [] ->
            ShapeError tag id classes StaticUnrestricted
| SE_tag t e : tag = Some t -> NameError t e -> ShapeError tag id classes (StaticTag e)
| SE_id i e : OptValid tag -> id = Some i -> NameError i e ->
              ShapeError tag id classes (StaticId e)
| SE_class pre c post e : OptValid tag -> OptValid id -> classes = pre ++ c :: post ->
    (forall d, In d pre -> ValidName d) -> NameError c e ->
    ShapeError tag id classes (StaticClass (length pre) e).

(** The event starts the element with this tag name and these attributes. *)
Inductive Starts : event -> str -> attributes -> Prop :=
| starts_open t a : Starts (OpeningTag t a) (id_str t) a
| starts_closed t a : Starts (SelfClosedTag t a) (id_str t) a
| starts_void t a : Starts (VoidTag t a) (id_str t) a.

(** The event starts an element with the tag, the id and the classes. *)
Definition Described (tag id : option str) (classes : list str) (ev : event) : Prop :=
  exists t a, Starts ev t a /\
    (forall x, tag = Some x -> SameName x t) /\
    (forall x, id = Some x -> HasId a x) /\
    (forall x, In x classes -> HasClass a x).

(** The names in the start tag are valid, as those of all events made by the library. *)
Definition ValidEvent (ev : event) : Prop :=
  match ev with
  | OpeningTag t a | SelfClosedTag t a | VoidTag t a => ValidName (id_str t) /\ ValidAttrs a
  | ClosingTag t => ValidName (id_str t)
  | _ => True
  end.
