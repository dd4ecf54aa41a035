(** What a rendered text shows of an event list, and edits that only add text. *)
From Coq Require Import List NArith Bool.
Import ListNotations.
From Verif Require Import Text Event SpecText SpecAttr SpecParse.
Open Scope N_scope.

(** Names of start tags that do not begin with an exclamation mark. *)
Definition no_bang (n : str) : Prop := ~ Begins (eq 33) n.
Definition NoBang (ev : event) : Prop :=
  match ev with
  | OpeningTag t _ | SelfClosedTag t _ | VoidTag t _ => no_bang (id_str t)
  | _ => True
  end.

(** ** Structure of an event list: markup and the text between *)

(** White space at the start of an attribute value is not significant. *)
Inductive Unindent : str -> str -> Prop := unindent w v : Gap w v -> Unindent (w ++ v) v.
Definition SameAttribute (a b : attribute) : Prop :=
  id_str (a_name a) = id_str (a_name b) /\
  match a_value a, a_value b with
  | None, None => True
  | Some v, Some w => exists u, Unindent (enc_str v) u /\ Unindent (enc_str w) u
  | _, _ => False
  end.
Definition SameMarkup (x y : event) : Prop :=
  match x, y with
  | Doctype c, Doctype d | Comment c, Comment d => enc_str c = enc_str d
  | OpeningTag t a, OpeningTag u b
  | SelfClosedTag t a, SelfClosedTag u b
  | VoidTag t a, VoidTag u b => id_str t = id_str u /\ Forall2 SameAttribute a b
  | ClosingTag t, ClosingTag u => id_str t = id_str u
  | _, _ => False
  end.
(** The text at the start of an event list, and what follows it. *)
Fixpoint leading (evs : list event) : str :=
  match evs with
  | Data c :: r | RawData c :: r => enc_str c ++ leading r
  | Noop :: r => leading r
  | _ => []
  end.
Fixpoint following (evs : list event) : list event :=
  match evs with
  | Data _ :: r | RawData _ :: r | Noop :: r => following r
  | _ => evs
  end.
(** The same markup in the same order, with the same text between. *)
Inductive SameStructure : list event -> list event -> Prop :=
| same_end xs ys :
    leading xs = leading ys -> following xs = [] -> following ys = [] -> SameStructure xs ys
| same_markup xs ys x y xs' ys' :
    leading xs = leading ys -> following xs = x :: xs' -> following ys = y :: ys' ->
    SameMarkup x y -> SameStructure xs' ys' -> SameStructure xs ys.

(** ** Adding text *)

(** Text without angle brackets and double quotes, as produced by escaping. *)
Definition MarkupFree (v : str) : Prop := ~ In 60 v /\ ~ In 62 v /\ ~ In 34 v.

(** Names that end where a word ends, and so can be read back. *)
Definition Writable (n : str) : Prop := ValidName n /\ (forall c, In c n -> ~ Delimiter c).

(** Attributes with existing ones removed or given new values, or with new ones. *)
Definition EditedAttributes (old new : attributes) : Prop :=
  forall a, In a new -> In a old \/
    ((Writable (id_str (a_name a)) \/ exists b, In b old /\ a_name b = a_name a) /\
     match a_value a with
     | None => True
     | Some v => MarkupFree (enc_str v) \/
                 exists b w x, In b old /\ a_value b = Some w /\ MarkupFree x /\ enc_str v = enc_str w ++ x
     end).
Inductive EditedTag : event -> event -> Prop :=
| ed_same ev : EditedTag ev ev
| ed_open t a b : EditedAttributes a b -> EditedTag (OpeningTag t a) (OpeningTag t b)
| ed_self t a b : EditedAttributes a b -> EditedTag (SelfClosedTag t a) (SelfClosedTag t b)
| ed_void t a b : EditedAttributes a b -> EditedTag (VoidTag t a) (VoidTag t b).

(** [evs'] is [evs] with text inserted between events, attributes edited, whole subtrees
    removed, and text put into self-closed elements. *)
Inductive Enriched : list event -> list event -> Prop :=
| en_nil : Enriched [] []
| en_text c evs evs' : MarkupFree (enc_str c) -> Enriched evs evs' -> Enriched evs (Data c :: evs')
| en_event ev ev' evs evs' : EditedTag ev ev' -> Enriched evs evs' -> Enriched (ev :: evs) (ev' :: evs')
| en_drop f evs evs' : Forest f -> Enriched evs evs' -> Enriched (f ++ evs) evs'
| en_fill t a b texts evs evs' :
    EditedAttributes a b ->
    Forall (fun ev => exists c, ev = Data c /\ MarkupFree (enc_str c)) texts ->
    Enriched evs evs' ->
    Enriched (SelfClosedTag t a :: evs) (OpeningTag t b :: texts ++ ClosingTag t :: evs').
