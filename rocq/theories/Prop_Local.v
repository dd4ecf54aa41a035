(** Property C66 (documents can be transformed piece by piece). *)
From Coq Require Import String ZArith List Bool.
From stdpp Require Import gmap.
From Verif Require Import Text Event Input Parse Selector Machine Template.
From Verif Require Import SpecText SpecAttr SpecParse SpecTree SpecTransform SpecOps SpecLaws SpecSelectLaws SpecLocal.
From Verif Require Import TreeProofs ErrorProofs SelectionProofs OpProofs LawProofs LawProofs2 LawProofs3 Prop_Ops.
From Verif Require Import Prop_SelectLaws LocalProofs.
Local Open Scope nat_scope.

(** ** C66 Piece by piece *)

(** Selections whose builder treats all matches alike, on templates in a row: the results in a
    row, or the first error. *)
Theorem C66_concat : forall A B p e r, WellNested A -> WellNested B -> Local p -> typed false p e -> ValidArgs p ->
  (Gives (A ++ B) p r <-> exists rA rB, Gives A p rA /\ Gives B p rB /\ r = followed_by rA rB).
Proof. exact local_concat. Qed.
Print Assumptions C66_concat.

(** So the result is made of those for each piece of text and each element at the top. *)
Theorem C66_pieces : forall F p e r, Proper F -> F <> [] -> Local p -> typed false p e -> ValidArgs p ->
  (Gives (events F) p r <->
   exists rs, Forall2 (fun x r => Gives (tree_events x) p r) F rs /\ r = all_of rs).
Proof. exact local_pieces. Qed.
Print Assumptions C66_pieces.

(** Inside of an element that is not selected, it is as if the element was not there.  Here the
    builder can count its calls. *)
Theorem C66_inside : forall t a K c p e r, ProperTree (Elem t a K c) -> PassesBy (OpeningTag t a) p ->
  typed false p e -> ValidArgs p ->
  (Gives (tree_events (Elem t a K c)) p r <->
   exists r', Gives (events K) p r' /\
     r = followed_by (inl [OpeningTag t a]) (followed_by r' (inl [ClosingTag c]))).
Proof. exact passes_inside. Qed.
Print Assumptions C66_inside.

(** ** Examples *)

(** The ids of [br] are set and [div] on the top level are removed. *)
Definition el_program : pipeline :=
  [OSelect false (inl es_br) (fun _ => es_id "i"); OSelect true (inl (SelTag (eo_id "DIV"))) (fun _ => [ORemove])].
Lemma el_local : Local el_program.
Proof.
  repeat constructor; intros m [= <-]; apply library_selector; discriminate.
Qed.
Lemma el_typed : typed false el_program false.
Proof. repeat econstructor. Qed.
Lemma el_valid : ValidArgs el_program.
Proof.
  apply (valid_args_app [OSelect false (inl es_br) (fun _ => es_id "i")]
                        [OSelect true (inl (SelTag (eo_id "DIV"))) (fun _ => [ORemove])]).
  - apply valid_args_wrap; auto. intros q [k ->]. eapply command_valid; [reflexivity|].
    intros i [= <-]. apply eo_valid. vm_compute. eauto.
  - apply valid_args_wrap; auto. intros q [k ->]. apply valid_args_plain; auto. discriminate.
Qed.
Definition el_br : event := VoidTag (eo_id "br") [Attribute (eo_id "id") (Some (eo_val "i"))].
Definition el_tree : tree := Elem (eo_id "div") [] [Leaf eo_br] (eo_id "div").
Lemma el_tree_proper : ProperTree el_tree.
Proof. pose proof es_forest_proper as H. unfold es_forest in H. do 3 apply proper_cons in H as [_ H]. now apply proper_cons in H. Qed.

(** In a row with itself, the example loses its last element twice. *)
Example C66_example_concat : Gives (events es_forest ++ events es_forest) el_program
  (inl ([eo_open; eo_text "1"; el_br; eo_close; el_br; eo_text "x"] ++
        [eo_open; eo_text "1"; el_br; eo_close; el_br; eo_text "x"])).
Proof.
  assert (Gives (events es_forest) el_program
    (inl [eo_open; eo_text "1"; el_br; eo_close; el_br; eo_text "x"])) as H.
  { exists 200. eexists. vm_compute. reflexivity. }
  apply (C66_concat _ _ _ false).
  - exists es_forest. split; [apply es_forest_proper|reflexivity].
  - exists es_forest. split; [apply es_forest_proper|reflexivity].
  - apply el_local.
  - apply el_typed.
  - apply el_valid.
  - do 2 eexists. split; [exact H|]. split; [exact H|]. reflexivity.
Qed.
Example C66_example_pieces : Gives (events es_forest) el_program
  (all_of [inl [eo_open; eo_text "1"; el_br; eo_close]; inl [el_br]; inl [eo_text "x"]; inl []]).
Proof.
  apply (C66_pieces _ _ false); [apply es_forest_proper|discriminate|apply el_local|apply el_typed|apply el_valid|].
  eexists. split; [|reflexivity].
  repeat constructor; (exists 100; eexists; vm_compute; reflexivity).
Qed.
(** Inside of the [div]: the first program of the two, with a builder that counts. *)
Definition el_count : pipeline :=
  [OSelect false (inl es_br) (fun k => match k with O => es_id "i" | S _ => [ORemove] end)].
Example C66_example_inside : Gives (tree_events el_tree) el_count
  (inl [OpeningTag (eo_id "div") []; el_br; ClosingTag (eo_id "div")]).
Proof.
  apply (C66_inside _ _ _ _ _ false).
  - exact el_tree_proper.
  - constructor; [|constructor]. constructor; [apply library_selector; discriminate|reflexivity].
  - econstructor; [|constructor]. constructor. intros [|k]; eexists; repeat econstructor.
  - apply valid_args_wrap; auto. intros q [[|k] ->].
    + eapply command_valid; [reflexivity|]. intros i [= <-]. apply eo_valid. vm_compute. eauto.
    + apply valid_args_plain; auto. discriminate.
  - exists (inl [el_br]). split; [exists 100; eexists; vm_compute; reflexivity|reflexivity].
Qed.

(** With a builder that counts, pieces are not transformed alike; nor with [select_once]. *)
Lemma el_count_differs : exists A B p out out', WellNested A /\ WellNested B /\ typed false p false /\ ValidArgs p /\
  (exists b, p = [OSelect false (inl es_br) b]) /\
  Gives A p (inl out) /\ Gives B p (inl out) /\ Gives (A ++ B) p (inl out') /\
  display_events out' <> display_events (out ++ out).
Proof.
  exists [eo_br], [eo_br], el_count. do 2 eexists.
  assert (WellNested [eo_br]) as Hw.
  { exists [Leaf eo_br]. split; [|reflexivity]. pose proof es_forest_proper as H. unfold es_forest in H.
    apply proper_cons in H as [_ H]. apply proper_cons in H as [H _]. apply proper_cons. split; [exact H|apply proper_nil]. }
  split; [exact Hw|]. split; [exact Hw|].
  split. { econstructor; [|constructor]. constructor. intros [|k]; eexists; repeat econstructor. }
  split. { apply valid_args_wrap; auto. intros q [[|k] ->].
    + eapply command_valid; [reflexivity|]. intros i [= <-]. apply eo_valid. vm_compute. eauto.
    + apply valid_args_plain; auto. discriminate. }
  split; [eexists; reflexivity|].
  split; [exists 100; eexists; vm_compute; reflexivity|].
  split; [exists 100; eexists; vm_compute; reflexivity|].
  split; [exists 100; eexists; vm_compute; reflexivity|].
  vm_compute. discriminate.
Qed.
Theorem C66_concat_refuted : exists A B p out out',
  WellNested A /\ WellNested B /\ typed false p false /\ ValidArgs p /\
  (exists b, p = [OSelect false (inl es_br) b]) /\
  Gives A p (inl out) /\ Gives B p (inl out) /\ Gives (A ++ B) p (inl out') /\
  display_events out' <> display_events (out ++ out).
Proof. exact el_count_differs. Qed.
Print Assumptions C66_concat_refuted.
