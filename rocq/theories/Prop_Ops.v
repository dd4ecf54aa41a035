(** Properties C22, C23, C25, C26, C27, C28, C31, C32, C38: what single calls do. *)
From Coq Require Import String ZArith List.
From stdpp Require Import gmap.
From Verif Require Import Text Event Input Parse Selector Machine Template.
From Verif Require Import SpecText SpecAttr SpecParse SpecTree SpecTransform SpecOps.
From Verif Require Import TreeProofs ErrorProofs SelectionProofs OpProofs ApiProofs ApiProofs2.
From Verif Require Api.
Local Open Scope nat_scope.

(** ** Examples: [<p class="a  b" title>1<br></p>], [<p/>] and [<br>] *)

Definition eo_id (s : string) : ident := Ident (StaticStr (lit s)).
Definition eo_val (s : string) : value := Encoded (StaticStr (lit s)).
Definition eo_text (s : string) : event := Data (Encoded (StaticStr (lit s))).
Definition eo_attrs : attributes :=
  [Attribute (eo_id "class") (Some (eo_val "a  b")); Attribute (eo_id "title") None].
Definition eo_br : event := VoidTag (eo_id "br") [].
Definition eo_kids : list tree := [Leaf (eo_text "1"); Leaf eo_br].
Definition eo_p : tree := Elem (eo_id "p") eo_attrs eo_kids (eo_id "P").
Definition eo_open : event := OpeningTag (eo_id "p") eo_attrs.
Definition eo_close : event := ClosingTag (eo_id "P").
Definition eo_p' : tree := Leaf (SelfClosedTag (eo_id "p") eo_attrs).
Lemma eo_valid s : (exists t, validate (lit s) = inl t) -> ValidTag (eo_id s).
Proof. apply TextProofs.validate_iff. Qed.
Lemma eo_attrs_valid : ValidAttrs eo_attrs.
Proof. intros a [<-|[<-|[]]]; apply eo_valid; vm_compute; eauto. Qed.
Lemma eo_br_proper : ProperTree (Leaf eo_br).
Proof. constructor; [exact I|]. split; [apply eo_valid; vm_compute; eauto|intros a []]. Qed.
Lemma eo_p_proper : ProperTree eo_p.
Proof.
  constructor; [apply eo_valid; vm_compute; eauto|apply eo_attrs_valid|
                apply TextProofs.eq_ignore_spec; vm_compute; reflexivity|].
  intros x [<-|[<-|[]]]; [now constructor|apply eo_br_proper].
Qed.
Lemma eo_p'_proper : ProperTree eo_p'.
Proof. constructor; [exact I|]. split; [apply eo_valid; vm_compute; eauto|apply eo_attrs_valid]. Qed.

(** ** C22 remove/replace/append/prepend act on the whole selection *)

Theorem C22_remove : forall evs, WellNested evs -> Gives evs [ORemove] (inl []).
Proof. exact remove_result. Qed.
Print Assumptions C22_remove.

(** The content need not be well nested: a stream written by the user may give any events.
    Templates have no [Noop] (C17), and those of streams are skipped. *)
Theorem C22_replace : forall evs c r, WellNested evs -> ContentGives c (inl r) -> ~ In Noop r ->
  Gives evs [OReplace c] (inl r).
Proof. exact replace_result. Qed.
Print Assumptions C22_replace.

Theorem C22_append : forall evs c r, WellNested evs -> ContentGives c (inl r) -> ~ In Noop r ->
  Gives evs [OAppend c] (inl (evs ++ r)).
Proof. exact append_result. Qed.
Print Assumptions C22_append.

Theorem C22_prepend : forall evs c r, WellNested evs -> ContentGives c (inl r) -> ~ In Noop r ->
  Gives evs [OPrepend c] (inl (r ++ evs)).
Proof. exact prepend_result. Qed.
Print Assumptions C22_prepend.

(** Failing content fails the call. *)
Theorem C22_failure : forall evs c o e, WellNested evs ->
  o = OReplace c \/ o = OAppend c \/ o = OPrepend c ->
  ContentGives c (inr e) -> Gives evs [o] (inr e).
Proof. exact content_failure. Qed.
Print Assumptions C22_failure.

Example C22_example : Gives (tree_events eo_p) [OPrepend (CResult (inl (CTemplate (tree_events eo_p'))))]
  (inl (tree_events eo_p' ++ tree_events eo_p)).
Proof.
  apply C22_prepend; [apply well_nested_tree, eo_p_proper|apply CG_ok; constructor|].
  intros [H|[]]; discriminate.
Qed.
(** A stream of the user: a closing tag only. *)
Example C22_example_stream : Gives (tree_events eo_p)
  [OAppend (CStream [Noop; ClosingTag (eo_id "i"); Noop] None)]
  (inl (tree_events eo_p ++ [ClosingTag (eo_id "i")])).
Proof.
  apply (C22_append (tree_events eo_p) _ [ClosingTag (eo_id "i")]);
    [apply well_nested_tree, eo_p_proper|constructor|].
  intros [H|[]]; discriminate.
Qed.
Example C22_example_broken : Gives (tree_events eo_p)
  [OPrepend (CStream [eo_open; Noop] (Some (SEIdentifier IdEmpty)))] (inr (SEIdentifier IdEmpty)).
Proof.
  eapply C22_failure; [apply well_nested_tree, eo_p_proper|right; right; reflexivity|constructor].
Qed.

(** ** C23 The *_contents operations act between the tags and nowhere else *)

(** [Inside x op kids cl]: the children of [x] are [kids], between the tags [op] and [cl];
    for a self-closed element these are the tags it is expanded to. *)
Theorem C23_remove_contents : forall x op kids cl, ProperTree x -> Inside x op kids cl ->
  Gives (tree_events x) [ORemoveContents] (inl [op; cl]).
Proof. exact remove_contents_result. Qed.
Print Assumptions C23_remove_contents.

Theorem C23_replace_contents : forall x op kids cl, ProperTree x -> Inside x op kids cl ->
  forall c r, ContentGives c (inl r) -> ~ In Noop r ->
  Gives (tree_events x) [OReplaceContents c] (inl (op :: r ++ [cl])).
Proof. exact replace_contents_result. Qed.
Print Assumptions C23_replace_contents.

Theorem C23_append_contents : forall x op kids cl, ProperTree x -> Inside x op kids cl ->
  forall c r, ContentGives c (inl r) -> ~ In Noop r ->
  Gives (tree_events x) [OAppendContents c] (inl (op :: events kids ++ r ++ [cl])).
Proof. exact append_contents_result. Qed.
Print Assumptions C23_append_contents.

Theorem C23_prepend_contents : forall x op kids cl, ProperTree x -> Inside x op kids cl ->
  forall c r, ContentGives c (inl r) -> ~ In Noop r ->
  Gives (tree_events x) [OPrependContents c] (inl (op :: r ++ events kids ++ [cl])).
Proof. exact prepend_contents_result. Qed.
Print Assumptions C23_prepend_contents.

Theorem C23_failure : forall x op kids cl, ProperTree x -> Inside x op kids cl ->
  forall c o err, o = OReplaceContents c \/ o = OAppendContents c \/ o = OPrependContents c ->
  ContentGives c (inr err) -> Gives (tree_events x) [o] (inr err).
Proof. exact contents_failure. Qed.
Print Assumptions C23_failure.

(** Void elements are left alone by all calls on contents. *)
Theorem C23_void : forall o o' t a e, ContentsOf o o' -> typed true [o] e -> ValidArgs [o] ->
  ProperTree (Leaf (VoidTag t a)) -> Gives [VoidTag t a] [o] (inl [VoidTag t a]).
Proof. exact contents_void. Qed.
Print Assumptions C23_void.

Example C23_example : Gives (tree_events eo_p) [OAppendContents (CStatic (lit "<"))]
  (inl [eo_open; eo_text "1"; eo_br; Data (Encoded (Actual (lit "&lt;"))); eo_close]).
Proof.
  apply (C23_append_contents eo_p eo_open eo_kids eo_close eo_p_proper (In_elem _ _ _ _)
           (CStatic (lit "<")) [Data (Encoded (Actual (lit "&lt;")))]); [constructor|].
  intros [H|[]]; discriminate.
Qed.
Example C23_example_self_closed : Gives (tree_events eo_p') [ORemoveContents]
  (inl [eo_open; ClosingTag (eo_id "p")]).
Proof. exact (C23_remove_contents eo_p' eo_open [] _ eo_p'_proper (In_self _ _)). Qed.
(** Even failing content leaves a void element alone. *)
Example C23_example_void : Gives [eo_br] [OAppendContents (CResult (inr (SEIdentifier IdEmpty)))] (inl [eo_br]).
Proof.
  eapply (C23_void _ _ (eo_id "br") [] true (CO_append _)).
  - apply typed_one. constructor.
  - eapply valid_args_err; reflexivity.
  - apply eo_br_proper.
Qed.

(** ** C25 repeat emits one transformed copy per item, in order *)

(** [b k item] is what the builder returns when called for the [k]-th item. *)
Theorem C25_repeat : forall T e evs (items : list T) b rs, Selection e evs ->
  (forall k item, exists e', typed e (b k item) e') -> ValidArgs [Api.repeat items b] ->
  length items = length rs ->
  (forall k item r, nth_error items k = Some item -> nth_error rs k = Some r ->
     Gives evs (b k item) (inl r)) ->
  Gives evs [Api.repeat items b] (inl (List.concat rs)).
Proof. exact @repeat_items. Qed.
Print Assumptions C25_repeat.

Theorem C25_repeat_failure : forall T e evs (items : list T) b k item err, Selection e evs ->
  (forall k item, exists e', typed e (b k item) e') -> ValidArgs [Api.repeat items b] ->
  nth_error items k = Some item -> Gives evs (b k item) (inr err) ->
  (forall j item, j < k -> nth_error items j = Some item -> exists r, Gives evs (b j item) (inl r)) ->
  Gives evs [Api.repeat items b] (inr err).
Proof. exact @repeat_items_failure. Qed.
Print Assumptions C25_repeat_failure.

Theorem C25_repeat_contents : forall x op kids cl, ProperTree x -> Inside x op kids cl ->
  forall T (items : list T) b rs,
  (forall k item, exists e', typed false (b k item) e') -> ValidArgs [Api.repeat_contents items b] ->
  length items = length rs ->
  (forall k item r, nth_error items k = Some item -> nth_error rs k = Some r ->
     Gives (events kids) (b k item) (inl r)) ->
  Gives (tree_events x) [Api.repeat_contents items b] (inl (op :: List.concat rs ++ [cl])).
Proof. exact @repeat_contents_items. Qed.
Print Assumptions C25_repeat_contents.

Theorem C25_repeat_contents_failure : forall x op kids cl, ProperTree x -> Inside x op kids cl ->
  forall T (items : list T) b k item err,
  (forall k item, exists e', typed false (b k item) e') -> ValidArgs [Api.repeat_contents items b] ->
  nth_error items k = Some item -> Gives (events kids) (b k item) (inr err) ->
  (forall j item, j < k -> nth_error items j = Some item ->
     exists r, Gives (events kids) (b j item) (inl r)) ->
  Gives (tree_events x) [Api.repeat_contents items b] (inr err).
Proof. exact @repeat_contents_items_failure. Qed.
Print Assumptions C25_repeat_contents_failure.

(** The fallback is used exactly if there are no items; it gets the whole selection. *)
Theorem C25_or_else_no_items : forall T e evs (b : nat -> T -> pipeline) p e' r, Selection e evs ->
  typed e p e' -> ValidArgs p ->
  (Gives evs [Api.repeat_or_else [] b p] r <-> Gives evs p r).
Proof. exact @repeat_or_else_none. Qed.
Print Assumptions C25_or_else_no_items.

Theorem C25_or_else_items : forall T e evs (items : list T) b p e' r, items <> [] ->
  Selection e evs -> typed e [Api.repeat_or_else items b p] e' ->
  ValidArgs [Api.repeat_or_else items b p] ->
  (Gives evs [Api.repeat_or_else items b p] r <-> Gives evs [Api.repeat items b] r).
Proof. exact @repeat_or_else_some. Qed.
Print Assumptions C25_or_else_items.

Theorem C25_contents_or_else_no_items : forall T x (b : nat -> T -> pipeline) p e' r,
  ProperTree x -> IsElement x -> typed true p e' -> ValidArgs p ->
  (Gives (tree_events x) [Api.repeat_contents_or_else [] b p] r <-> Gives (tree_events x) p r).
Proof. exact @repeat_contents_or_else_none. Qed.
Print Assumptions C25_contents_or_else_no_items.

Theorem C25_contents_or_else_items : forall T x (items : list T) b p e' r, items <> [] ->
  ProperTree x -> IsElement x -> typed true [Api.repeat_contents_or_else items b p] e' ->
  ValidArgs [Api.repeat_contents_or_else items b p] ->
  (Gives (tree_events x) [Api.repeat_contents_or_else items b p] r <->
   Gives (tree_events x) [Api.repeat_contents items b] r).
Proof. exact @repeat_contents_or_else_some. Qed.
Print Assumptions C25_contents_or_else_items.

Definition eo_builder (k : nat) (item : Z) : pipeline := [OAppend (CInt item)].
Lemma eo_builder_args items : ValidArgs [Api.repeat_contents items eo_builder].
Proof.
  apply obtainable_args_valid, obtainable_args_wrap; try reflexivity; [discriminate|].
  intros q Hq. simpl in Hq. apply elem_of_list_In, elem_of_lookup_imap in Hq as (k & z & -> & _).
  eapply obtainable_args_text; [reflexivity|exact I].
Qed.
Definition eo_int (z : Z) : event := Data (Encoded (Actual (decimal_z z))).
Example C25_example : Gives (tree_events eo_p) [Api.repeat_contents [5%Z; (-6)%Z] eo_builder]
  (inl [eo_open; eo_text "1"; eo_br; eo_int 5; eo_text "1"; eo_br; eo_int (-6); eo_close]).
Proof.
  apply (C25_repeat_contents eo_p eo_open eo_kids eo_close eo_p_proper (In_elem _ _ _ _) Z [5%Z; (-6)%Z]
           eo_builder [[eo_text "1"; eo_br; eo_int 5]; [eo_text "1"; eo_br; eo_int (-6)]]).
  - intros k item. eexists. apply typed_one. constructor.
  - apply eo_builder_args.
  - reflexivity.
  - assert (WellNested (events eo_kids)) as Hk.
    { apply well_nested_events. pose proof eo_p_proper as H. now inversion H. }
    intros [|[|[|k]]] item r Hi Hr; try discriminate; injection Hi as <-; injection Hr as <-;
      apply (C22_append (events eo_kids) (CInt _) [eo_int _]);
      [exact Hk|constructor|intros [H|[]]; discriminate|exact Hk|constructor|intros [H|[]]; discriminate].
Qed.

(** ** C26 Attribute operations change exactly the named attribute *)

(** [attrs_of x = Some a]: [x] is an element with attributes [a].  [Reattr x a y l]: [y] is
    [x] with the attributes [l] instead.  [Names name n]: the argument [name] is the
    identifier [n]. *)
Theorem C26_add : forall x a, ProperTree x -> attrs_of x = Some a ->
  forall o name n v, Adds o name v -> Names name n ->
  exists y, Reattr x a y (a ++ [Attribute n v]) /\ Gives (tree_events x) [o] (inl (tree_events y)).
Proof. exact element_add. Qed.
Print Assumptions C26_add.

Theorem C26_set : forall x a, ProperTree x -> attrs_of x = Some a ->
  forall o name n v, Sets o name v -> Names name n ->
  exists y l, Without (id_str n) a l /\ Reattr x a y (l ++ [Attribute n v]) /\
    Gives (tree_events x) [o] (inl (tree_events y)).
Proof. exact element_set. Qed.
Print Assumptions C26_set.

Theorem C26_remove : forall x a, ProperTree x -> attrs_of x = Some a ->
  forall name n, Names name n ->
  exists y l, Without (id_str n) a l /\ Reattr x a y l /\
    Gives (tree_events x) [Api.remove_attribute name] (inl (tree_events y)).
Proof. exact element_remove. Qed.
Print Assumptions C26_remove.

Theorem C26_replace_present : forall x a, ProperTree x -> attrs_of x = Some a ->
  forall name n v, Names name n -> (exists b, In b a /\ NamedAs (id_str n) b) ->
  exists y l, Without (id_str n) a l /\ Reattr x a y (l ++ [Attribute n (Some (Api.into_value v))]) /\
    Gives (tree_events x) [Api.replace_attribute_value_if_exists name v] (inl (tree_events y)).
Proof. exact element_replace_present. Qed.
Print Assumptions C26_replace_present.

Theorem C26_replace_absent : forall x a, ProperTree x -> attrs_of x = Some a ->
  forall name n v, Names name n -> (forall b, In b a -> ~ NamedAs (id_str n) b) ->
  Gives (tree_events x) [Api.replace_attribute_value_if_exists name v] (inl (tree_events x)).
Proof. exact element_replace_absent. Qed.
Print Assumptions C26_replace_absent.

Theorem C26_add_to_absent : forall x a, ProperTree x -> attrs_of x = Some a ->
  forall name n v sep, Names name n -> (forall b, In b a -> ~ NamedAs (id_str n) b) ->
  exists y, Reattr x a y (a ++ [Attribute n (Some (Api.into_value v))]) /\
    Gives (tree_events x) [Api.add_to_attribute name v sep] (inl (tree_events y)).
Proof. exact element_add_to_absent. Qed.
Print Assumptions C26_add_to_absent.

Theorem C26_add_to_present : forall x a, ProperTree x -> attrs_of x = Some a ->
  forall name n v sep pre b post, Names name n ->
  a = pre ++ b :: post -> (forall b, In b pre -> ~ NamedAs (id_str n) b) -> NamedAs (id_str n) b ->
  exists y b' v', Reattr x a y (pre ++ b' :: post) /\
    Gives (tree_events x) [Api.add_to_attribute name v sep] (inl (tree_events y)) /\
    a_name b' = a_name b /\ a_value b' = Some v' /\
    enc_str v' = match a_value b with
                 | Some old => enc_str old ++ enc_str (Api.into_value sep) ++ enc_str (Api.into_value v)
                 | None => enc_str (Api.into_value v)
                 end.
Proof. exact element_add_to_present. Qed.
Print Assumptions C26_add_to_present.

(** The name is written in another case. *)
Example C26_example_names : Names (Api.IAStatic (lit "Title")) (eo_id "Title").
Proof. split; [vm_compute; reflexivity|]. apply eo_valid. vm_compute. eauto. Qed.
Example C26_example : exists y l, Without (lit "Title") eo_attrs l /\
  Reattr eo_p eo_attrs y (l ++ [Attribute (eo_id "Title") (Some (eo_val "7"))]) /\
  Gives (tree_events eo_p) [Api.set_attribute_with_value (Api.IAStatic (lit "Title")) (Api.VAValue (eo_val "7"))]
    (inl (tree_events y)).
Proof.
  exact (C26_set eo_p eo_attrs eo_p_proper eq_refl _ _ _ _
           (Sets_value (Api.IAStatic (lit "Title")) (Api.VAValue (eo_val "7"))) C26_example_names).
Qed.
Example C26_example_computed :
  Gives (tree_events eo_p) [Api.set_attribute_with_value (Api.IAStatic (lit "Title")) (Api.VAValue (eo_val "7"))]
    (inl (OpeningTag (eo_id "p") [Attribute (eo_id "class") (Some (eo_val "a  b"));
                                  Attribute (eo_id "Title") (Some (eo_val "7"))]
          :: events eo_kids ++ [eo_close])).
Proof. exists 100. eexists. vm_compute. reflexivity. Qed.

(** ** C27 Class and id operations do what their name says *)

Theorem C27_add_class : forall x a, ProperTree x -> attrs_of x = Some a -> forall name c, Names name c ->
  exists y l, Reattr x a y l /\ (forall d, HasClass l d <-> HasClass a d \/ SameName d (id_str c)) /\
    (forall l', Without (lit "class") a l' -> Without (lit "class") l l') /\
    Gives (tree_events x) [OAddClass (Api.into_identifier name)] (inl (tree_events y)).
Proof. exact element_add_class. Qed.
Print Assumptions C27_add_class.

Theorem C27_remove_class : forall x a, ProperTree x -> attrs_of x = Some a -> forall name c, Names name c ->
  exists y l, Reattr x a y l /\ (forall d, HasClass l d <-> HasClass a d /\ ~ SameName (id_str c) d) /\
    (forall l', Without (lit "class") a l' -> Without (lit "class") l l') /\
    (~ HasClass a (id_str c) -> l = a) /\
    Gives (tree_events x) [ORemoveClass (Api.into_identifier name)] (inl (tree_events y)).
Proof. exact element_remove_class. Qed.
Print Assumptions C27_remove_class.

Theorem C27_set_id : forall x a, ProperTree x -> attrs_of x = Some a -> forall name c, Names name c ->
  exists y l, Reattr x a y l /\ (forall j, HasId l j <-> SameName j (id_str c)) /\
    (forall l', Without (lit "id") a l' -> Without (lit "id") l l') /\
    Gives (tree_events x) [OSetId (Api.into_identifier name)] (inl (tree_events y)).
Proof. exact element_set_id. Qed.
Print Assumptions C27_set_id.

Theorem C27_remove_id : forall x a, ProperTree x -> attrs_of x = Some a ->
  exists y l, Reattr x a y l /\ Without (lit "id") a l /\
  (forall j, ~ HasId l j) /\ Gives (tree_events x) [ORemoveId] (inl (tree_events y)).
Proof. exact element_remove_id. Qed.
Print Assumptions C27_remove_id.

Example C27_example : exists y l, Reattr eo_p eo_attrs y l /\
  (forall d, HasClass l d <-> HasClass eo_attrs d \/ SameName d (lit "Title")) /\
  (forall l', Without (lit "class") eo_attrs l' -> Without (lit "class") l l') /\
  Gives (tree_events eo_p) [OAddClass (ident_from_static_str (lit "Title"))] (inl (tree_events y)).
Proof. exact (C27_add_class eo_p eo_attrs eo_p_proper eq_refl _ _ C26_example_names). Qed.
Example C27_example_computed :
  Gives (tree_events eo_p) [ORemoveClass (ident_from_static_str (lit "B")); OSetId (ident_from_static_str (lit "i"))]
    (inl (OpeningTag (eo_id "p") [Attribute (eo_id "class") (Some (Encoded (Actual (lit "a"))));
                                  Attribute (eo_id "title") None;
                                  Attribute (eo_id "id") (Some (Encoded (StaticStr (lit "i"))))]
          :: events eo_kids ++ [eo_close])).
Proof. exists 100. eexists. vm_compute. reflexivity. Qed.

(** ** C28 Attribute operations leave contents alone *)

(** The result is the same element with other attributes. *)
Theorem C28_attributes_only : forall o x, attribute_op o -> (forall i, op_name o <> Some (inr i)) ->
  (forall i, op_name o = Some (inl i) -> ValidName (id_str i)) ->
  ProperTree x -> IsElement x ->
  exists a y a', Reattr x a y a' /\ Gives (tree_events x) [o] (inl (tree_events y)).
Proof. exact attribute_result. Qed.
Print Assumptions C28_attributes_only.

(** An invalid name is reported. *)
Theorem C28_invalid_name : forall o x i, attribute_op o -> op_name o = Some (inr i) ->
  ProperTree x -> IsElement x -> Gives (tree_events x) [o] (inr (SEIdentifier i)).
Proof. exact name_failure. Qed.
Print Assumptions C28_invalid_name.

Example C28_example : exists a y a', Reattr eo_p a y a' /\
  Gives (tree_events eo_p) [ORemoveClass (inl (eo_id "a"))] (inl (tree_events y)).
Proof.
  apply C28_attributes_only; [exact I|discriminate| |apply eo_p_proper|exact I].
  intros i [= <-]. apply eo_valid. vm_compute. eauto.
Qed.

(** ** C31 Conditional application selects exactly one branch *)

(** [Same o q]: the call [o] can everywhere be replaced by the calls [q]. *)
Theorem C31_apply : forall p, Same (OApply p) p.
Proof. exact apply_same. Qed.
Print Assumptions C31_apply.

Theorem C31_apply_if : forall b p other, Same (Api.apply_if b p other) (if b then p else []).
Proof. exact apply_if_same. Qed.
Print Assumptions C31_apply_if.

Theorem C31_apply_if_else : forall b p q other,
  Same (Api.apply_if_else b p q other) (if b then p else q).
Proof. exact apply_if_else_same. Qed.
Print Assumptions C31_apply_if_else.

Theorem C31_apply_with_option : forall T (v : option T) f q other,
  Same (Api.apply_with_option v f q other) (match v with Some t => f t | None => q end).
Proof. exact @apply_with_option_same. Qed.
Print Assumptions C31_apply_with_option.

Theorem C31_apply_with_result : forall T E (v : T + E) f g other,
  Same (Api.apply_with_result v f g other) (match v with inl t => f t | inr e => g e end).
Proof. exact @apply_with_result_same. Qed.
Print Assumptions C31_apply_with_result.

Theorem C31_boxed : Same OIntoBoxed [] /\ Same OIntoBoxedElement [].
Proof. exact (conj boxed_same boxed_element_same). Qed.
Print Assumptions C31_boxed.

Theorem C31_apply_as_boxed : forall e b evs r q, Selection e evs -> typed e [Api.apply_as_boxed q] b ->
  ValidArgs [Api.apply_as_boxed q] -> (Gives evs [Api.apply_as_boxed q] r <-> Gives evs q r).
Proof. exact as_boxed_same. Qed.
Print Assumptions C31_apply_as_boxed.

Theorem C31_apply_as_boxed_element : forall e b evs r q, Selection e evs ->
  typed e [Api.apply_as_boxed_element q] b -> ValidArgs [Api.apply_as_boxed_element q] ->
  (Gives evs [Api.apply_as_boxed_element q] r <-> Gives evs q r).
Proof. exact as_boxed_element_same. Qed.
Print Assumptions C31_apply_as_boxed_element.

(** The branch that is not taken may fail. *)
Example C31_example : forall r,
  Gives (tree_events eo_p)
    ([ORemoveContents] ++
     Api.apply_if_else false [OReplaceContents (CResult (inr (SEIdentifier IdEmpty)))] [OAppendContents (CInt 3)] true
     :: [OAppend (CInt 4)]) r <->
  Gives (tree_events eo_p) [ORemoveContents; OAppendContents (CInt 3); OAppend (CInt 4)] r.
Proof.
  intros r. apply (C31_apply_if_else false [OReplaceContents (CResult (inr (SEIdentifier IdEmpty)))]
    [OAppendContents (CInt 3)] true true [ORemoveContents] [OAppend (CInt 4)] false).
  - exists eo_p. repeat split; [apply eo_p_proper].
  - econstructor; [constructor|]. econstructor; [apply (T_either true true true); apply typed_one; constructor|].
    apply typed_one. constructor.
  - apply obtainable_args_valid.
    apply obtainable_args_cons; [|apply obtainable_args_cons; [|apply obtainable_args_cons; [|apply obtainable_args_nil]]].
    + apply obtainable_args_wrap; try reflexivity; [discriminate|intros q []].
    + apply obtainable_args_wrap; try reflexivity; [discriminate|]. intros q ->.
      eapply obtainable_args_text; [reflexivity|exact I].
    + eapply obtainable_args_text; [reflexivity|exact I].
Qed.

(** ** C32 [apply_as_template] passes exactly the current selection *)

(** [mid] is the selection after the calls [p].  [f] returns well nested templates because
    there are no others (C17). *)
Theorem C32_apply_as_template : forall e p e' evs mid f, Selection e evs -> typed e p e' -> ValidArgs p ->
  (forall x y, WellNested x -> f x = inl y -> WellNested y) ->
  Gives evs p (inl mid) -> Gives evs (p ++ [OApplyAsTemplate f]) (f mid).
Proof. exact as_template_after. Qed.
Print Assumptions C32_apply_as_template.

Example C32_example : Gives (tree_events eo_p) ([ORemoveContents] ++ [OApplyAsTemplate (fun x => inl (x ++ x))])
  (inl [eo_open; eo_close; eo_open; eo_close]).
Proof.
  apply (C32_apply_as_template true [ORemoveContents] true (tree_events eo_p) [eo_open; eo_close]
           (fun x => inl (x ++ x))).
  - exists eo_p. repeat split; [apply eo_p_proper].
  - apply typed_one. constructor.
  - apply obtainable_args_valid, obtainable_args_wrap; try reflexivity; [discriminate|intros q []].
  - intros x y (F & HF & ->) [= <-]. exists (F ++ F). split; [|now rewrite events_app].
    intros z Hz. apply in_app_or in Hz as [Hz|Hz]; auto.
  - exact (C23_remove_contents eo_p eo_open eo_kids eo_close eo_p_proper (In_elem _ _ _ _)).
Qed.

(** ** C38 Element construction *)

Theorem C38_with_element : forall s, ValidName s ->
  (VoidName s ->
   with_element (Api.into_identifier (Api.IAStatic s)) = inl [VoidTag (Ident (StaticStr s)) []]) /\
  (~ VoidName s ->
   with_element (Api.into_identifier (Api.IAStatic s)) = inl [SelfClosedTag (Ident (StaticStr s)) []]).
Proof. exact element_named. Qed.
Print Assumptions C38_with_element.

Theorem C38_with_identifier : forall tag, ValidTag tag ->
  (VoidName (id_str tag) -> with_element (inl tag) = inl [VoidTag tag []]) /\
  (~ VoidName (id_str tag) -> with_element (inl tag) = inl [SelfClosedTag tag []]).
Proof. exact with_element_result. Qed.
Print Assumptions C38_with_identifier.

(** Building an element is applying the builder to the new element [x]. *)
Theorem C38_with_transformed_element : forall tag p e r x, ValidTag tag -> typed true p e -> ValidArgs p ->
  (VoidName (id_str tag) /\ x = VoidTag tag [] \/ ~ VoidName (id_str tag) /\ x = SelfClosedTag tag []) ->
  ((exists n h, with_transformed_element n (inl tag) p = Done h r) <-> Gives [x] p r).
Proof. exact built_result. Qed.
Print Assumptions C38_with_transformed_element.

Theorem C38_invalid_name : forall s p, ~ ValidName s ->
  exists i, NameError s i /\ with_element (Api.into_identifier (Api.IAStatic s)) = inr i /\
    forall n, exists h, with_transformed_element n (Api.into_identifier (Api.IAStatic s)) p
                        = Done h (inr (SEIdentifier i)).
Proof. exact element_invalid. Qed.
Print Assumptions C38_invalid_name.

Example C38_example_void : VoidName (lit "Br") /\ ValidName (lit "Br") /\
  with_element (Api.into_identifier (Api.IAStatic (lit "Br"))) = inl [VoidTag (eo_id "Br") []].
Proof.
  split; [|split].
  - apply ParseProofs3.is_void_spec; [apply (eo_valid "Br"); vm_compute; eauto|vm_compute; reflexivity].
  - apply (eo_valid "Br"). vm_compute. eauto.
  - vm_compute. reflexivity.
Qed.
Example C38_example_transformed : exists h,
  with_transformed_element 100 (Api.into_identifier (Api.IAStatic (lit "p"))) [OAppendContents (CInt 7); OSetId (inl (eo_id "q"))]
  = Done h (inl [OpeningTag (eo_id "p") [Attribute (eo_id "id") (Some (Encoded (StaticStr (lit "q"))))];
                 Data (Encoded (Actual (lit "7"))); ClosingTag (eo_id "p")]).
Proof. eexists. vm_compute. reflexivity. Qed.
Example C38_example_invalid : ~ ValidName (lit "a b").
Proof. intros H. apply TextProofs.validate_iff in H as [t H]. vm_compute in H. discriminate. Qed.
