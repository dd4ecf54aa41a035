(** Properties C64 (rearranging selections) and C65 (calls on an element keep the element). *)
From Coq Require Import String ZArith List Bool.
From stdpp Require Import gmap.
From Verif Require Import Text Event Input Parse Selector Machine Template.
From Verif Require Import SpecText SpecAttr SpecParse SpecTree SpecTransform SpecOps SpecLaws SpecSelectLaws.
From Verif Require Import TreeProofs ErrorProofs SelectionProofs OpProofs LawProofs LawProofs2 LawProofs3 Prop_Ops.
From Verif Require Import SelectLawProofs SelectLawProofs2 SelectLawProofs3.
Local Open Scope nat_scope.

(** ** C64 Laws of selections *)

(** Selecting once is selecting all and doing nothing from the second on. *)
Theorem C64_once : forall e d m p e', ElementSelector m -> typed true p e' -> ValidArgs p ->
  Equal e [OSelectOnce d (inl m) p]
          [OSelect d (inl m) (fun k => match k with O => p | S _ => [] end)].
Proof. exact once_select. Qed.
Print Assumptions C64_once.

(** Two selections with the same selector are one doing both if the first keeps what it selects
    one matching element.  With results the same ... *)
Theorem C64_fuse : forall e d m b1 b2, ElementSelector m ->
  (forall k, typed true (b1 k) true) -> ElementBuilder b2 ->
  (forall k, ValidArgs (b1 k)) -> (forall k, ValidArgs (b2 k)) -> Stays m b1 ->
  Agree e [OSelect d (inl m) b1; OSelect d (inl m) b2] [OSelect d (inl m) (fun k => b1 k ++ b2 k)].
Proof. exact fuse_agree. Qed.
Print Assumptions C64_fuse.

(** ... and errors too if the first does not fail. *)
Theorem C64_fuse_errors : forall e d m b1 b2, ElementSelector m ->
  (forall k, typed true (b1 k) true) -> ElementBuilder b2 ->
  (forall k, ValidArgs (b1 k)) -> (forall k, ValidArgs (b2 k)) -> Stays m b1 -> Succeeds m b1 ->
  Equal e [OSelect d (inl m) b1; OSelect d (inl m) b2] [OSelect d (inl m) (fun k => b1 k ++ b2 k)].
Proof. exact fuse_equal. Qed.
Print Assumptions C64_fuse_errors.

(** With a tag selector it is enough that the first returns elements. *)
Theorem C64_fuse_tag : forall e d t b1 b2, (forall k, typed true (b1 k) true) -> ElementBuilder b2 ->
  (forall k, ValidArgs (b1 k)) -> (forall k, ValidArgs (b2 k)) ->
  Agree e [OSelect d (inl (SelTag t)) b1; OSelect d (inl (SelTag t)) b2]
          [OSelect d (inl (SelTag t)) (fun k => b1 k ++ b2 k)].
Proof. exact fuse_tag. Qed.
Print Assumptions C64_fuse_tag.

(** Two selections commute, each on the top level or anywhere, if no match of one is or contains
    a match of the other, nor is one put there. *)
Theorem C64_commute : forall d1 d2 m1 m2 b1 b2 F, ElementSelector m1 -> ElementSelector m2 -> Proper F ->
  ElementBuilder b1 -> ElementBuilder b2 -> (forall k, ValidArgs (b1 k)) -> (forall k, ValidArgs (b2 k)) ->
  Apart m1 m2 F -> Apart m2 m1 F -> Avoids m1 m2 b1 -> Avoids m2 m1 b2 -> forall out,
  Gives (events F) [OSelect d1 (inl m1) b1; OSelect d2 (inl m2) b2] (inl out) <->
  Gives (events F) [OSelect d2 (inl m2) b2; OSelect d1 (inl m1) b1] (inl out).
Proof. exact selections_commute. Qed.
Print Assumptions C64_commute.

(** The error is the same too if no argument of one of them can fail. *)
Theorem C64_commute_errors : forall d1 d2 m1 m2 b1 b2 F, ElementSelector m1 -> ElementSelector m2 -> Proper F ->
  ElementBuilder b1 -> ElementBuilder b2 -> (forall k, ValidArgs (b1 k)) -> (forall k, ValidArgs (b2 k)) ->
  Apart m1 m2 F -> Apart m2 m1 F -> Avoids m1 m2 b1 -> Avoids m2 m1 b2 ->
  (forall k, ElementSelectors (b1 k)) -> (forall k o err, Occurs (b1 k) o -> ~ SuppliesError o err) -> forall r,
  Gives (events F) [OSelect d1 (inl m1) b1; OSelect d2 (inl m2) b2] r <->
  Gives (events F) [OSelect d2 (inl m2) b2; OSelect d1 (inl m1) b1] r.
Proof. exact selections_commute_error. Qed.
Print Assumptions C64_commute_errors.

(** ** C65 Calls on an element keep the element *)

(** Whatever is called on an element, as long as the type of the builder is that of elements:
    the result is one element, of the same name, and void exactly if it was. *)
Theorem C65_element : forall p x out, typed true p true -> ValidArgs p -> ProperTree x -> IsElement x ->
  Gives (tree_events x) p (inl out) ->
  exists y, out = tree_events y /\ ProperTree y /\ IsElement y /\ tag_of y = tag_of x /\ (IsVoid y <-> IsVoid x).
Proof. exact element_kept. Qed.
Print Assumptions C65_element.

(** So it still matches every tag selector it did. *)
Theorem C65_tag : forall t b, (forall k, typed true (b k) true) -> (forall k, ValidArgs (b k)) ->
  Stays (SelTag t) b.
Proof. exact tag_stays. Qed.
Print Assumptions C65_tag.

(** Calls on attributes that are not named id or class keep matches of the library's
    selectors; on those not named class the matches of class selectors; and so on. *)
Theorem C65_attributes : forall m b, (forall k, UnrelatedCalls m (b k)) -> Stays m b /\ Succeeds m b.
Proof. exact unrelated_stays. Qed.
Print Assumptions C65_attributes.
Theorem C65_attributes_avoid : forall m m' b, (forall k, UnrelatedCalls m' (b k)) -> Avoids m m' b.
Proof. exact unrelated_avoids. Qed.
Print Assumptions C65_attributes_avoid.

(** ** Examples *)

(** <p class="a  b" title>1<br></p><br>x<div><br></div> *)
Definition es_forest : list tree :=
  [eo_p; Leaf eo_br; Leaf (eo_text "x"); Elem (eo_id "div") [] [Leaf eo_br] (eo_id "div")].
Lemma es_forest_proper : Proper es_forest.
Proof.
  apply proper_cons. split; [apply eo_p_proper|].
  apply proper_cons. split; [|].
  { constructor; [exact I|]. split; [apply eo_valid; vm_compute; eauto|]. intros ? []. }
  apply proper_cons. split; [constructor; exact I|].
  apply proper_cons. split; [|apply proper_nil].
  constructor; [apply eo_valid; vm_compute; eauto|intros ? []|apply TextProofs.same_name_refl|].
  intros x [<-|[]]. constructor; [exact I|]. split; [apply eo_valid; vm_compute; eauto|]. intros ? [].
Qed.
Definition es_br : selector := SelTag (eo_id "br").
Definition es_id (s : string) : pipeline := [OSetId (inl (eo_id s))].
Definition es_title (s : string) : pipeline := [OSetAttribute (inl (eo_id "title")) (Some (eo_val s))].

Lemma es_data_valid o s : op_content o = Some (CData (eo_val s)) -> ValidArgs [o].
Proof.
  intros H. eapply valid_args_ok; [exact H|constructor|]. exists [Leaf (Data (eo_val s))].
  split; [|reflexivity]. apply proper_cons. split; [constructor; exact I|apply proper_nil].
Qed.

Example C64_example_once : Gives (events es_forest)
    [OSelect false (inl es_br) (fun k => match k with O => es_id "i" | S _ => [] end)]
    (inl (eo_open :: eo_text "1" :: VoidTag (eo_id "br") [Attribute (eo_id "id") (Some (eo_val "i"))] :: eo_close ::
          eo_br :: eo_text "x" :: events (skipn 3 es_forest))) /\
  Gives (events es_forest) [OSelectOnce false (inl es_br) (es_id "i")]
    (inl (eo_open :: eo_text "1" :: VoidTag (eo_id "br") [Attribute (eo_id "id") (Some (eo_val "i"))] :: eo_close ::
          eo_br :: eo_text "x" :: events (skipn 3 es_forest))).
Proof.
  assert (Gives (events es_forest)
    [OSelect false (inl es_br) (fun k => match k with O => es_id "i" | S _ => [] end)]
    (inl (eo_open :: eo_text "1" :: VoidTag (eo_id "br") [Attribute (eo_id "id") (Some (eo_val "i"))] :: eo_close ::
          eo_br :: eo_text "x" :: events (skipn 3 es_forest)))) as H.
  { exists 200. eexists. vm_compute. reflexivity. }
  split; [exact H|]. refine (proj2 (C64_once false false es_br (es_id "i") true _ _ _ _ _ _) H).
  - apply library_selector. discriminate.
  - apply typed_one. constructor.
  - eapply command_valid; [reflexivity|]. intros i [= <-]. apply eo_valid. vm_compute. eauto.
  - exists es_forest. split; [apply es_forest_proper|reflexivity].
Qed.

Lemma es_title_unrelated m s : Unrelated m (lit "title") -> UnrelatedCalls m (es_title s).
Proof.
  intros H o [<-|[]]. exists (lit "title"). split; [exact (About_set (eo_id "title") _)|]. split; [exact H|].
  intros i [= <-]. apply eo_valid. vm_compute. eauto.
Qed.
(** Setting the title of elements of a class, twice: one selection does both. *)
Example C64_example_fuse : Equal false
  [OSelect false (inl (SelClass (eo_id "b"))) (fun _ => es_title "1");
   OSelect false (inl (SelClass (eo_id "b"))) (fun _ => es_title "2")]
  [OSelect false (inl (SelClass (eo_id "b"))) (fun _ => es_title "1" ++ es_title "2")].
Proof.
  assert (forall s, UnrelatedCalls (SelClass (eo_id "b")) (es_title s)) as H.
  { intros s. apply es_title_unrelated. simpl. rewrite <- TextProofs.eq_ignore_spec. vm_compute. discriminate. }
  destruct (C65_attributes (SelClass (eo_id "b")) (fun _ => es_title "1")) as [H1 H2]; [intros; apply H|].
  apply (C64_fuse_errors false false (SelClass (eo_id "b")) (fun _ => es_title "1") (fun _ => es_title "2")); auto.
  - apply library_selector. discriminate.
  - intros _. apply typed_one. constructor.
  - intros _. eexists. apply typed_one. constructor.
  - intros _. eapply unrelated_element, (H "1"%string).
  - intros _. eapply unrelated_element, (H "2"%string).
Qed.
(** The same twice with a call that makes elements not match: two selections differ from one. *)
Lemma es_fuse_differs : exists m b1 b2 evs out out', ElementSelector m /\
  (forall k, typed true (b1 k) true) /\ (forall k, typed true (b2 k) true) /\ WellNested evs /\
  Gives evs [OSelect false (inl m) b1; OSelect false (inl m) b2] (inl out) /\
  Gives evs [OSelect false (inl m) (fun k => b1 k ++ b2 k)] (inl out') /\
  display_events out <> display_events out'.
Proof.
  exists (SelClass (eo_id "b")), (fun _ => [ORemoveClass (inl (eo_id "b"))]), (fun _ => es_id "i"), (tree_events eo_p).
  do 2 eexists. split; [apply library_selector; discriminate|].
  split; [intros _; apply typed_one; constructor|]. split; [intros _; apply typed_one; constructor|].
  split; [apply well_nested_tree, eo_p_proper|].
  split; [exists 100; eexists; vm_compute; reflexivity|].
  split; [exists 100; eexists; vm_compute; reflexivity|].
  vm_compute. discriminate.
Qed.
Theorem C64_fuse_refuted : exists m b1 b2 evs out out', ElementSelector m /\
  (forall k, typed true (b1 k) true) /\ (forall k, typed true (b2 k) true) /\ WellNested evs /\
  Gives evs [OSelect false (inl m) b1; OSelect false (inl m) b2] (inl out) /\
  Gives evs [OSelect false (inl m) (fun k => b1 k ++ b2 k)] (inl out') /\
  display_events out <> display_events out'.
Proof. exact es_fuse_differs. Qed.
Print Assumptions C64_fuse_refuted.

(** Ids and classes are set on [br] inside and outside of [div], titles on [p]: in <p class="a" title>1</p>
    and the rest of the example. *)
Definition es_apart : list tree :=
  [Elem (eo_id "p") eo_attrs [Leaf (eo_text "1")] (eo_id "p"); Leaf eo_br;
   Elem (eo_id "div") [] [Leaf eo_br; Leaf (VoidTag (eo_id "P") [])] (eo_id "div")].
Lemma es_apart_proper : Proper es_apart.
Proof.
  assert (forall s, (exists t, validate (lit s) = inl t) -> ProperTree (Leaf (VoidTag (eo_id s) []))) as Hv.
  { intros s H. constructor; [exact I|]. split; [now apply eo_valid|]. intros ? []. }
  apply proper_cons. split.
  { constructor; [apply eo_valid; vm_compute; eauto| |apply TextProofs.same_name_refl|].
    - pose proof eo_p_proper as H. inversion H; subst; auto.
    - intros x [<-|[]]. constructor; exact I. }
  apply proper_cons. split; [apply Hv; vm_compute; eauto|].
  apply proper_cons. split; [|apply proper_nil].
  constructor; [apply eo_valid; vm_compute; eauto|intros ? []|apply TextProofs.same_name_refl|].
  intros x [<-|[<-|[]]]; apply Hv; vm_compute; eauto.
Qed.
Lemma es_at path x : At es_apart path x ->
  In x (es_apart ++ [Leaf (eo_text "1"); Leaf eo_br; Leaf (VoidTag (eo_id "P") [])]).
Proof.
  intros H. inversion H as [? ? Hi|? t a kids c path' ? Hi Ha]; subst.
  - apply in_or_app. now left.
  - destruct Hi as [E|[E|[E|[]]]]; inversion E; subst; apply in_or_app; right.
    + apply at_cons_inv in Ha as [Ha|Ha].
      * apply at_leaf in Ha as [_ ->]. simpl. auto.
      * inversion Ha; contradiction.
    + apply at_cons_inv in Ha as [Ha|Ha]; [|apply at_cons_inv in Ha as [Ha|Ha]].
      * apply at_leaf in Ha as [_ ->]. simpl. auto.
      * apply at_leaf in Ha as [_ ->]. simpl. auto.
      * inversion Ha; contradiction.
Qed.
Lemma es_apart_ok m m' :
  forallb (fun x => negb (matches m (start x)) || forallb (fun ev => negb (matches m' ev)) (tree_events x))
    (es_apart ++ [Leaf (eo_text "1"); Leaf eo_br; Leaf (VoidTag (eo_id "P") [])]) = true ->
  Apart m m' es_apart.
Proof.
  intros H path x Ha Hm ev He. rewrite forallb_forall in H. specialize (H x (es_at _ _ Ha)).
  rewrite Hm in H. simpl in H. rewrite forallb_forall in H. specialize (H ev He).
  now apply negb_true_iff in H.
Qed.
Example C64_example_commute : forall b k0, 
  (forall k, b k = [OReplace (CData (eo_val "y"))]) -> k0 = es_title "t" -> forall r,
  Gives (events es_apart) [OSelect false (inl (SelTag (eo_id "p"))) (fun _ => k0); OSelect true (inl es_br) b] r <->
  Gives (events es_apart) [OSelect true (inl es_br) b; OSelect false (inl (SelTag (eo_id "p"))) (fun _ => k0)] r.
Proof.
  intros b k0 Hb -> r. 
  assert (UnrelatedCalls es_br (es_title "t")) as Hu by now apply es_title_unrelated.
  destruct (unrelated_element _ _ Hu) as [Tt Vt].
  apply C64_commute_errors.
  - apply library_selector. discriminate.
  - apply library_selector. discriminate.
  - apply es_apart_proper.
  - intros _. eauto.
  - intros k. rewrite Hb. eexists. apply typed_one. constructor.
  - auto.
  - intros k. rewrite Hb. apply es_data_valid with (s := "y"%string). reflexivity.
  - apply es_apart_ok. vm_compute. reflexivity.
  - apply es_apart_ok. vm_compute. reflexivity.
  - apply C65_attributes_avoid. intros _. exact Hu.
  - intros k x out Hp He _ _ Hg. rewrite Hb in Hg.
    assert (Gives (tree_events x) [OReplace (CData (eo_val "y"))] (inl [Data (eo_val "y")])) as Hg'.
    { apply C22_replace; [now apply well_nested_tree|constructor|]. intros [H|[]]; discriminate. }
    pose proof (TreeProofs.gives_det _ _ _ _ Hg Hg') as E. injection E as ->.
    intros ev [<-|[]]. reflexivity.
  - intros _ o m Ho Hm. remember (es_title "t") as p eqn:Ep.
    destruct Ho as [o p Hi|o p q o' Hi Hs Ho]; subst.
    + destruct Hi as [<-|[]]. discriminate Hm.
    + destruct Hi as [<-|[]]. destruct Hs.
  - intros _ o err Ho Hs. remember (es_title "t") as p eqn:Ep.
    destruct Ho as [o p Hi|o p q o' Hi Hs' Ho]; subst.
    + destruct Hi as [<-|[]].
      destruct Hs as [Hs|[(i & Hs & _)|[(c & Hs & _)|(f & x & Hs & _)]]]; discriminate Hs.
    + destruct Hi as [<-|[]]. destruct Hs'.
Qed.
(** If matches of one are inside matches of the other, the order can matter. *)
Lemma es_order_matters : exists m1 m2 b1 b2 F out out', ElementSelector m1 /\ ElementSelector m2 /\ Proper F /\
  (forall k, b1 k = [ORepeat [[]; []]]) /\ (forall k, typed true (b2 k) true) /\
  Gives (events F) [OSelect false (inl m1) b1; OSelect false (inl m2) b2] (inl out) /\
  Gives (events F) [OSelect false (inl m2) b2; OSelect false (inl m1) b1] (inl out') /\
  display_events out <> display_events out'.
Proof.
  exists (SelTag (eo_id "p")), es_br, (fun _ => [ORepeat [[]; []]]),
    (fun k => match k with O => es_id "i" | S _ => es_id "j" end), es_forest.
  do 2 eexists. split; [apply library_selector; discriminate|]. split; [apply library_selector; discriminate|].
  split; [apply es_forest_proper|]. split; [reflexivity|].
  split; [intros [|k]; apply typed_one; constructor|].
  split; [exists 300; eexists; vm_compute; reflexivity|].
  split; [exists 300; eexists; vm_compute; reflexivity|].
  vm_compute. discriminate.
Qed.
Theorem C64_commute_refuted : exists m1 m2 b1 b2 F out out', ElementSelector m1 /\ ElementSelector m2 /\ Proper F /\
  (forall k, b1 k = [ORepeat [[]; []]]) /\ (forall k, typed true (b2 k) true) /\
  Gives (events F) [OSelect false (inl m1) b1; OSelect false (inl m2) b2] (inl out) /\
  Gives (events F) [OSelect false (inl m2) b2; OSelect false (inl m1) b1] (inl out') /\
  display_events out <> display_events out'.
Proof. exact es_order_matters. Qed.
Print Assumptions C64_commute_refuted.

(** Three calls on the element of the example, one of which replaces all its children. *)
Example C65_example : exists y,
  tree_events y = OpeningTag (eo_id "p") [Attribute (eo_id "class") (Some (Encoded (Actual (lit "a"))));
                                         Attribute (eo_id "title") None] ::
                  [eo_text "z"; eo_close] /\
  Gives (tree_events eo_p) [ORemoveClass (inl (eo_id "b")); ORemoveId; OReplaceContents (CData (eo_val "z"))]
    (inl (tree_events y)) /\ tag_of y = tag_of eo_p /\ (IsVoid y <-> IsVoid eo_p).
Proof.
  assert (Gives (tree_events eo_p) [ORemoveClass (inl (eo_id "b")); ORemoveId; OReplaceContents (CData (eo_val "z"))]
    (inl (OpeningTag (eo_id "p") [Attribute (eo_id "class") (Some (Encoded (Actual (lit "a"))));
                                  Attribute (eo_id "title") None] ::
          [eo_text "z"; eo_close]))) as H.
  { exists 100. eexists. vm_compute. reflexivity. }
  assert (ValidArgs [ORemoveClass (inl (eo_id "b")); ORemoveId; OReplaceContents (CData (eo_val "z"))]) as Hv.
  { apply (valid_args_app [ORemoveClass (inl (eo_id "b"))] [ORemoveId; OReplaceContents (CData (eo_val "z"))]).
    - eapply command_valid; [reflexivity|]. intros i [= <-]. apply eo_valid. vm_compute. eauto.
    - apply (valid_args_app [ORemoveId] [OReplaceContents (CData (eo_val "z"))]).
      + eapply command_valid; [reflexivity|]. discriminate.
      + apply es_data_valid with (s := "z"%string). reflexivity. }
  assert (typed true [ORemoveClass (inl (eo_id "b")); ORemoveId; OReplaceContents (CData (eo_val "z"))] true) as Ht.
  { repeat econstructor. }
  destruct (C65_element _ _ _ Ht Hv eo_p_proper I H) as (y & E & _ & _ & H1 & H2).
  exists y. rewrite <- E. auto.
Qed.
