(** Model of [src/event.rs] (events, attributes, rendering) and of the derived
    equalities.  No proofs. *)
From Coq Require Import String List NArith Bool.
From Verif Require Import Text.
Import ListNotations.
Open Scope N_scope.

(** [Attribute], event.rs:343-346 *)
Record attribute := Attribute { a_name : ident; a_value : option value }.
(** [Attributes], event.rs:200-202 (the [Rc] is only for cheap cloning) *)
Definition attributes := list attribute.

(** [EventKind], event.rs:23-52 ([Event], event.rs:20, is a newtype) *)
Inductive event :=
| Noop
| Doctype (content : encoded)
| Comment (content : encoded)
| Data (content : data)
| RawData (content : encoded)
| OpeningTag (tag : ident) (attrs : attributes)
| ClosingTag (tag : ident)
| SelfClosedTag (tag : ident) (attrs : attributes)
| VoidTag (tag : ident) (attrs : attributes).

(** [element_tag_start], event.rs:56-63 *)
Definition element_tag_start (e : event) : option ident :=
  match e with
  | OpeningTag tag _ | SelfClosedTag tag _ | VoidTag tag _ => Some tag
  | _ => None
  end.

(** [attributes], event.rs:65-72 *)
Definition event_attributes (e : event) : option attributes :=
  match e with
  | OpeningTag _ a | SelfClosedTag _ a | VoidTag _ a => Some a
  | _ => None
  end.

(** [closing_tag_name], event.rs:109-114 *)
Definition closing_tag_name (e : event) : option ident :=
  match e with ClosingTag tag => Some tag | _ => None end.

(** [opening_tag_name], event.rs:116-121 *)
Definition opening_tag_name (e : event) : option ident :=
  match e with OpeningTag tag _ => Some tag | _ => None end.

(** [is_opening_tag_for], event.rs:89-93 *)
Definition is_opening_tag_for (e : event) (tag_name : ident) : bool :=
  match opening_tag_name e with
  | Some name => ident_eqb name tag_name
  | None => false
  end.

(** [is_closing_tag_for_str], event.rs:95-100 *)
Definition is_closing_tag_for_str (e : event) (tag_name : str) : bool :=
  match e with ClosingTag tag => ident_is_eq tag tag_name | _ => false end.

(** [is_closing_tag_for], event.rs:102-107 *)
Definition is_closing_tag_for (e : event) (tag_name : ident) : bool :=
  match e with ClosingTag tag => ident_eqb tag tag_name | _ => false end.

(** ** Rendering *)

(** [Display for Attribute], event.rs:437-448 *)
Definition display_attribute (a : attribute) : str :=
  id_str (a_name a) ++
  match a_value a with
  | Some v => [c_eq; c_quot] ++ enc_str v ++ [c_quot]
  | None => []
  end.

(** the loop of [Display for Attributes], event.rs:326-340 *)
Fixpoint display_attributes_loop (first : bool) (items : attributes) : str :=
  match items with
  | [] => []
  | a :: items' =>
      (if first then [] else [c_space]) ++ display_attribute a
        ++ display_attributes_loop false items'
  end.
Definition display_attributes (items : attributes) : str :=
  display_attributes_loop true items.

(** [Display for TagDisplay], event.rs:187-197 *)
Definition display_tag (tag : ident) (items : attributes) : str :=
  id_str tag ++
  match items with [] => [] | _ => [c_space] ++ display_attributes items end.

(** [Display for Event], event.rs:158-180 *)
Definition display_event (e : event) : str :=
  match e with
  | Noop => []
  | Doctype content => lit "<!doctype " ++ enc_str content ++ [c_gt]
  | Comment content => lit "<!--" ++ enc_str content ++ lit "-->"
  | Data content => enc_str content
  | RawData content => enc_str content
  | SelfClosedTag tag items => [c_lt] ++ display_tag tag items ++ lit " />"
  | OpeningTag tag items => [c_lt] ++ display_tag tag items ++ [c_gt]
  | VoidTag tag items => [c_lt] ++ display_tag tag items ++ [c_gt]
  | ClosingTag tag => [c_lt; c_slash] ++ id_str tag ++ [c_gt]
  end.

(** [Display for Template], template.rs:369-377 *)
Fixpoint display_events (es : list event) : str :=
  match es with
  | [] => []
  | e :: es' => display_event e ++ display_events es'
  end.

(** ** [Attributes] methods *)

(** [add_to_attribute], event.rs:212-242.  The two Rust loops share one iterator:
    the first stops after the first match, the second copies the rest. *)
Fixpoint add_to_attribute (items : attributes) (name : ident) (new_value separator : value)
  : attributes :=
  match items with
  | [] => [Attribute name (Some new_value)]
  | a :: rest =>
      if ident_eqb (a_name a) name
      then Attribute (a_name a)
             (Some (match a_value a with
                    | Some v => enc_join (enc_join v separator) new_value
                    | None => new_value
                    end)) :: rest
      else a :: add_to_attribute rest name new_value separator
  end.

(** the filtering loop common to [replace_attribute], [remove_attribute] and
    [set_attribute], event.rs:246-251, 267-272, 278-283 *)
Fixpoint attributes_except (items : attributes) (name : ident) : attributes :=
  match items with
  | [] => []
  | a :: rest =>
      if negb (ident_eqb (a_name a) name)
      then a :: attributes_except rest name
      else attributes_except rest name
  end.

(** [replace_attribute], event.rs:244-256 *)
Definition replace_attribute (items : attributes) (name : ident) (v : option value)
  : attributes :=
  let kept := attributes_except items name in
  if negb (Nat.eqb (length items) (length kept))
  then kept ++ [Attribute name v]
  else kept.

(** [add_attribute], event.rs:258-263 *)
Definition add_attribute (items : attributes) (name : ident) (v : option value) : attributes :=
  items ++ [Attribute name v].

(** [remove_attribute], event.rs:265-274 *)
Definition remove_attribute (items : attributes) (name : ident) : attributes :=
  attributes_except items name.

(** [set_attribute], event.rs:276-286 *)
Definition set_attribute (items : attributes) (name : ident) (v : option value) : attributes :=
  attributes_except items name ++ [Attribute name v].

(** [Attribute::classes], event.rs:380-387; the [Classes] iterator (352-369) skips
    empty words *)
Definition attribute_classes (a : attribute) : option (list str) :=
  if ident_is_eq (a_name a) (lit "class")
  then match a_value a with
       | Some v => Some (filter (fun w => match w with [] => false | _ => true end)
                                (split_whitespace (enc_str v)))
       | None => None
       end
  else None.

(** [Attribute::has_class], event.rs:389-398 *)
Definition attribute_has_class (a : attribute) (name : str) : bool :=
  match attribute_classes a with
  | Some classes => existsb (fun class => identifier_eq name class) classes
  | None => false
  end.

(** the loop of [make_without], event.rs:411-418 *)
Fixpoint without_class_loop (classes : list str) (name : str) (acc : value) : value :=
  match classes with
  | [] => acc
  | class :: rest =>
      if negb (identifier_eq name class)
      then let acc := if negb (enc_is_empty acc)
                      then enc_push_encoded_str acc [c_space] else acc in
           without_class_loop rest name (enc_push_encoded_str acc class)
      else without_class_loop rest name acc
  end.

(** [make_without], event.rs:402-420 *)
Definition make_without (a : attribute) (name : str) : option value :=
  if negb (attribute_has_class a name) then None
  else match attribute_classes a with
       | None => None
       | Some classes => Some (without_class_loop classes name enc_new)
       end.

(** [Attribute::remove_class], event.rs:400-434 *)
Definition attribute_remove_class (a : attribute) (name : str) : option attribute :=
  match make_without a name with
  | None => Some a
  | Some new_classes =>
      if enc_is_empty new_classes then None
      else Some (Attribute (a_name a) (Some new_classes))
  end.

(** [Attributes::has_class], event.rs:303-310 *)
Definition has_class (items : attributes) (name : str) : bool :=
  existsb (fun a => attribute_has_class a name) items.

(** [Attributes::remove_class], event.rs:288-301 *)
Fixpoint remove_class_loop (items : attributes) (name : str) : attributes :=
  match items with
  | [] => []
  | a :: rest =>
      match attribute_remove_class a name with
      | Some a' => a' :: remove_class_loop rest name
      | None => remove_class_loop rest name
      end
  end.
Definition remove_class (items : attributes) (name : ident) : attributes :=
  if has_class items (id_str name) then remove_class_loop items (id_str name) else items.

(** [Attributes::has_id], event.rs:312-323 *)
Fixpoint has_id (items : attributes) (id : str) : bool :=
  match items with
  | [] => false
  | a :: rest =>
      if ident_is_eq (a_name a) (lit "id")
      then match a_value a with
           | Some v => if identifier_eq (enc_str v) id then true else has_id rest id
           | None => has_id rest id
           end
      else has_id rest id
  end.

(** ** Derived [PartialEq] *)
Definition option_eqb {A} (eqb : A -> A -> bool) (a b : option A) : bool :=
  match a, b with
  | Some x, Some y => eqb x y
  | None, None => true
  | _, _ => false
  end.
Fixpoint list_eqb {A} (eqb : A -> A -> bool) (a b : list A) : bool :=
  match a, b with
  | [], [] => true
  | x :: a', y :: b' => eqb x y && list_eqb eqb a' b'
  | _, _ => false
  end.
(** event.rs:342 *)
Definition attribute_eqb (a b : attribute) : bool :=
  ident_eqb (a_name a) (a_name b) && option_eqb encoded_eqb (a_value a) (a_value b).
(** event.rs:199 *)
Definition attributes_eqb (a b : attributes) : bool := list_eqb attribute_eqb a b.
(** event.rs:19, 22 *)
Definition event_eqb (a b : event) : bool :=
  match a, b with
  | Noop, Noop => true
  | Doctype x, Doctype y => encoded_eqb x y
  | Comment x, Comment y => encoded_eqb x y
  | Data x, Data y => encoded_eqb x y
  | RawData x, RawData y => encoded_eqb x y
  | OpeningTag t a, OpeningTag u b => ident_eqb t u && attributes_eqb a b
  | ClosingTag t, ClosingTag u => ident_eqb t u
  | SelfClosedTag t a, SelfClosedTag u b => ident_eqb t u && attributes_eqb a b
  | VoidTag t a, VoidTag u b => ident_eqb t u && attributes_eqb a b
  | _, _ => false
  end.
