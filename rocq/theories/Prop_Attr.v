(** Properties C26 and C27 on attribute lists.  [apply_attr c l] is what the attribute
    streams do to the attribute list of the start tag.  The theorems about the API methods
    are in [Prop_Ops]. *)
From Coq Require Import String List NArith Bool.
Import ListNotations.
From Verif Require Import Text Event Machine SpecText SpecAttr AttrProofs AttrProofs2.
Open Scope N_scope.

(** ** C26 Attribute operations change exactly the named attribute *)

(** Setting removes all attributes of that name and puts the new one last. *)
Theorem C26_list_set : forall l n v, ValidAttrs l -> ValidName (id_str n) ->
  exists l', Without (id_str n) l l' /\
             apply_attr (ASetAttribute n v) l = l' ++ [Attribute n v].
Proof. exact set_spec. Qed.
Print Assumptions C26_list_set.

(** Removing removes all attributes of that name and no others. *)
Theorem C26_list_remove : forall l n, ValidAttrs l -> ValidName (id_str n) ->
  Without (id_str n) l (apply_attr (ARemoveAttribute n) l).
Proof. exact remove_spec. Qed.
Print Assumptions C26_list_remove.

(** Replacing sets the attribute if there is one of that name, and does nothing otherwise. *)
Theorem C26_list_replace_if_exists : forall l n v, ValidAttrs l -> ValidName (id_str n) ->
  ((exists a, In a l /\ NamedAs (id_str n) a) ->
   apply_attr (AReplaceAttribute n v) l = apply_attr (ASetAttribute n v) l) /\
  ((forall a, In a l -> ~ NamedAs (id_str n) a) -> apply_attr (AReplaceAttribute n v) l = l).
Proof. exact replace_spec. Qed.
Print Assumptions C26_list_replace_if_exists.

(** Adding to an absent attribute creates it. *)
Theorem C26_list_add_to_absent : forall l n v sep, ValidAttrs l -> ValidName (id_str n) ->
  (forall a, In a l -> ~ NamedAs (id_str n) a) ->
  apply_attr (AAddToAttribute n v sep) l = l ++ [Attribute n (Some v)].
Proof. exact add_to_absent. Qed.
Print Assumptions C26_list_add_to_absent.

(** Adding to a present attribute extends its first occurrence in place. *)
Theorem C26_list_add_to_present : forall pre a post n v sep,
  ValidAttrs (pre ++ a :: post) -> ValidName (id_str n) ->
  (forall b, In b pre -> ~ NamedAs (id_str n) b) -> NamedAs (id_str n) a ->
  exists a' v', apply_attr (AAddToAttribute n v sep) (pre ++ a :: post) = pre ++ a' :: post /\
    a_name a' = a_name a /\ a_value a' = Some v' /\
    enc_str v' = match a_value a with
                 | Some old => enc_str old ++ enc_str sep ++ enc_str v
                 | None => enc_str v
                 end.
Proof. exact add_to_present. Qed.
Print Assumptions C26_list_add_to_present.

Definition ex_name (s : string) : ident := Ident (StaticStr (lit s)).
Definition ex_val (s : string) : value := Encoded (StaticStr (lit s)).
Definition ex_attrs : attributes :=
  [Attribute (ex_name "Data-x") None; Attribute (ex_name "title") (Some (ex_val "t"));
   Attribute (ex_name "DATA-X") (Some (ex_val "1"))].
Example C26_example_valid : ValidAttrs ex_attrs /\ ValidName (id_str (ex_name "data-x")).
Proof.
  split.
  - intros a [<-|[<-|[<-|[]]]]; apply TextProofs.validate_iff; vm_compute; eauto.
  - apply TextProofs.validate_iff; vm_compute; eauto.
Qed.
Example C26_example_set :
  apply_attr (ASetAttribute (ex_name "data-x") (Some (ex_val "2"))) ex_attrs
  = [Attribute (ex_name "title") (Some (ex_val "t"));
     Attribute (ex_name "data-x") (Some (ex_val "2"))].
Proof. reflexivity. Qed.
Example C26_example_add_to :
  map (fun a => option_map enc_str (a_value a))
    (apply_attr (AAddToAttribute (ex_name "title") (ex_val "u") (ex_val ", ")) ex_attrs)
  = [None; Some (lit "t, u"); Some (lit "1")].
Proof. reflexivity. Qed.

(** ** C27 Class and id operations do what their name says *)

(** After [add_class(c)] the element has class [c] and the classes it had, and no others. *)
Theorem C27_list_add_class : forall l class c d, static_ident (lit "class") = Some class ->
  ValidAttrs l -> ValidName (id_str c) ->
  (HasClass (apply_attr (class_cmd class c) l) d <-> HasClass l d \/ SameName d (id_str c)).
Proof. exact add_class_has. Qed.
Print Assumptions C27_list_add_class.

Theorem C27_list_add_class_others : forall l class c l', static_ident (lit "class") = Some class ->
  ValidAttrs l -> Without (lit "class") l l' ->
  Without (lit "class") (apply_attr (class_cmd class c) l) l'.
Proof. exact add_class_others. Qed.
Print Assumptions C27_list_add_class_others.

(** After [remove_class(c)] the element has the classes it had except [c]. *)
Theorem C27_list_remove_class : forall l c d, ValidAttrs l -> ValidName (id_str c) ->
  (HasClass (apply_attr (ARemoveClass c) l) d <-> HasClass l d /\ ~ SameName (id_str c) d).
Proof. exact remove_class_has. Qed.
Print Assumptions C27_list_remove_class.

Theorem C27_list_remove_class_others : forall l c l', ValidAttrs l -> ValidName (id_str c) ->
  Without (lit "class") l l' -> Without (lit "class") (apply_attr (ARemoveClass c) l) l'.
Proof. exact remove_class_others. Qed.
Print Assumptions C27_list_remove_class_others.

Theorem C27_list_remove_class_absent : forall l c, ValidAttrs l -> ValidName (id_str c) ->
  ~ HasClass l (id_str c) -> apply_attr (ARemoveClass c) l = l.
Proof. exact remove_class_absent. Qed.
Print Assumptions C27_list_remove_class_absent.

(** After [set_id(i)] the element has exactly the id [i]. *)
Theorem C27_list_set_id : forall l id i j, static_ident (lit "id") = Some id -> ValidAttrs l ->
  (HasId (apply_attr (set_id_cmd id i) l) j <-> SameName j (id_str i)).
Proof. exact set_id_has. Qed.
Print Assumptions C27_list_set_id.

Theorem C27_list_set_id_others : forall l id i l', static_ident (lit "id") = Some id ->
  ValidAttrs l -> Without (lit "id") l l' ->
  Without (lit "id") (apply_attr (set_id_cmd id i) l) l'.
Proof. exact set_id_others. Qed.
Print Assumptions C27_list_set_id_others.

(** After [remove_id] the element has no id; other attributes stay. *)
Theorem C27_list_remove_id : forall l id j, static_ident (lit "id") = Some id -> ValidAttrs l ->
  ~ HasId (apply_attr (ARemoveAttribute id) l) j /\
  Without (lit "id") l (apply_attr (ARemoveAttribute id) l).
Proof. exact remove_id_has. Qed.
Print Assumptions C27_list_remove_id.

Example C27_example_class : exists class, static_ident (lit "class") = Some class /\
  map (fun a => option_map enc_str (a_value a))
   (apply_attr (ARemoveClass (ex_name "b"))
    (apply_attr (class_cmd class (ex_name "new"))
      [Attribute (ex_name "CLASS") (Some (ex_val " a  B c")); Attribute (ex_name "id") None]))
  = [Some (lit "a c new"); None].
Proof. eexists. split; reflexivity. Qed.
Example C27_example_id : exists id, static_ident (lit "id") = Some id.
Proof. eexists. reflexivity. Qed.
