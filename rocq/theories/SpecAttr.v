(** What attributes, classes and ids of an element are, without reference to the model's
    functions on them. *)
From Coq Require Import String List NArith.
Import ListNotations.
From Verif Require Import Text Event SpecText.
Open Scope N_scope.

(** The attribute [a] is named [n], up to the case of letters. *)
Definition NamedAs (n : str) (a : attribute) : Prop := SameName n (id_str (a_name a)).
Definition ValidAttrs (l : attributes) : Prop :=
  forall a, In a l -> ValidName (id_str (a_name a)).

(** [l'] is [l] without all attributes named [n]. *)
Inductive Without (n : str) : attributes -> attributes -> Prop :=
| W_nil : Without n [] []
| W_drop a l l' : NamedAs n a -> Without n l l' -> Without n (a :: l) l'
| W_keep a l l' : ~ NamedAs n a -> Without n l l' -> Without n (a :: l) (a :: l').

(** The characters with the Unicode property White_Space. *)
Definition Space (c : char) : Prop :=
  9 <= c <= 13 \/ 8192 <= c <= 8202 \/
  In c [32; 133; 160; 5760; 8232; 8233; 8239; 8287; 12288].
(** [w] is a whitespace separated word of [s]. *)
Definition IsWord (w s : str) : Prop :=
  exists pre post,
    s = pre ++ w ++ post /\ w <> [] /\ (forall c, In c w -> ~ Space c) /\
    (pre = [] \/ exists p c, pre = p ++ [c] /\ Space c) /\
    (post = [] \/ exists c q, post = c :: q /\ Space c).

(** The element with attributes [l] has class [c]: one of its class attributes has the word
    [c] in its value. *)
Definition HasClass (l : attributes) (c : str) : Prop :=
  exists a v w, In a l /\ NamedAs (lit "class") a /\ a_value a = Some v /\
                IsWord w (enc_str v) /\ SameName c w.

(** The element with attributes [l] has id [i]. *)
Definition HasId (l : attributes) (i : str) : Prop :=
  exists a v, In a l /\ NamedAs (lit "id") a /\ a_value a = Some v /\ SameName i (enc_str v).
