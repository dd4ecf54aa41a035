(** Property C85: calls on the contents of an element, with iterators, closures and content
    streams that have state. *)
From Coq Require Import String ZArith List Lia.
From stdpp Require Import gmap.
From Verif Require Import Text Event Input Parse Selector Machine Template MachineState.
From Verif Require Import SpecText SpecAttr SpecParse SpecTree SpecTransform SpecOps SpecState SpecRepeatState SpecContentState.
From Verif Require Import ContentsStateProofs Prop_Ops Prop_NaturalState Prop_RepeatState Prop_ContentState.
Local Open Scope nat_scope.
Local Open Scope list_scope.

(** ** C85 Calls on contents with state *)

(** The contents are read once, before the iterator is called; the tags stay around all the
    copies. *)
Theorem C85_repeat_contents : forall (W : Type) x op kids cl, ProperTree x -> Inside x op kids cl ->
  forall (it : iterator W) w r w', GivesIn (tree_events x) (calls [WRepeatContents it]) w r w' <->
  exists r1, Repeats (events kids) it 0 w r1 w' /\ r = around [op] r1 [cl].
Proof. exact @repeat_contents_state. Qed.
Print Assumptions C85_repeat_contents.

Theorem C85_repeat_contents_or_else : forall (W : Type) x op kids cl, ProperTree x -> Inside x op kids cl ->
  forall (it : iterator W) b w r w', GivesIn (tree_events x) (calls [WRepeatContentsOrElse it b]) w r w' <->
  (exists w1, it 0 w = (w1, None) /\ GivesIn (tree_events x) b w1 r w') \/
  (exists w1 b0, it 0 w = (w1, Some b0) /\
     exists r1, Copies (events kids) it 0 (Some b0) w1 r1 w' /\ r = around [op] r1 [cl]).
Proof. exact @repeat_contents_or_else_state. Qed.
Print Assumptions C85_repeat_contents_or_else.

Theorem C85_append_contents : forall (W : Type) x op kids cl, ProperTree x -> Inside x op kids cl ->
  forall (c : wcontent W) w r w', GivesIn (tree_events x) (calls [WAppendContents c]) w r w' <->
  exists r1, ContentRuns c w r1 w' /\ r = around (op :: events kids) r1 [cl].
Proof. exact @append_contents_state. Qed.
Print Assumptions C85_append_contents.

Theorem C85_prepend_contents : forall (W : Type) x op kids cl, ProperTree x -> Inside x op kids cl ->
  forall (c : wcontent W) w r w', GivesIn (tree_events x) (calls [WPrependContents c]) w r w' <->
  exists r1, ContentRuns c w r1 w' /\ r = around [op] r1 (events kids ++ [cl]).
Proof. exact @prepend_contents_state. Qed.
Print Assumptions C85_prepend_contents.

Theorem C85_replace_contents : forall (W : Type) x op kids cl, ProperTree x -> Inside x op kids cl ->
  forall (c : wcontent W) w r w', GivesIn (tree_events x) (calls [WReplaceContents c]) w r w' <->
  exists r1, ContentRuns c w r1 w' /\ r = around [op] r1 [cl].
Proof. exact @replace_contents_state. Qed.
Print Assumptions C85_replace_contents.

(** For a void element nothing is called at all... *)
Theorem C85_void_repeat : forall (W : Type) t a (it : iterator W) w r w',
  GivesIn [VoidTag t a] (calls [WRepeatContents it]) w r w' <-> w' = w /\ r = inl [VoidTag t a].
Proof. exact @void_repeat. Qed.
Print Assumptions C85_void_repeat.
Theorem C85_void_content : forall (W : Type) t a (c : wcontent W) o w r w',
  o = WAppendContents c \/ o = WPrependContents c \/ o = WReplaceContents c ->
  GivesIn [VoidTag t a] (calls [o]) w r w' <-> w' = w /\ r = inl [VoidTag t a].
Proof. exact @void_content. Qed.
Print Assumptions C85_void_content.
(** ... except that [repeat_contents_or_else] asks the iterator once, whose item is then lost. *)
Theorem C85_void_or_else : forall (W : Type) t a (it : iterator W) b w r w',
  GivesIn [VoidTag t a] (calls [WRepeatContentsOrElse it b]) w r w' <->
  (exists w1, it 0 w = (w1, None) /\ GivesIn [VoidTag t a] b w1 r w') \/
  (exists w1 b0, it 0 w = (w1, Some b0) /\ w' = w1 /\ r = inl [VoidTag t a]).
Proof. exact @void_or_else. Qed.
Print Assumptions C85_void_or_else.

(** The contents of a paragraph, text and a [br], are repeated by the items of [C83_example_repeat],
    two of which are left in the state one: *)
Lemma ect_copy w : w < 3 -> GivesIn (events eo_kids) ers_number w (inl [eo_text "1"; ens_br w]) (S w).
Proof. intros Hw. destruct w as [|[|[|w]]]; try lia; apply (ens_run 40); vm_compute; reflexivity. Qed.
Example C85_example_repeat : GivesIn (tree_events eo_p) (calls [WRepeatContents ers_items]) 1
  (inl [eo_open; eo_text "1"; ens_br 1; eo_text "1"; ens_br 2; eo_close]) 3.
Proof.
  apply (C85_repeat_contents _ eo_p eo_open eo_kids eo_close eo_p_proper (In_elem _ _ _ _)).
  exists (inl [eo_text "1"; ens_br 1; eo_text "1"; ens_br 2]). split; [|reflexivity].
  econstructor; [reflexivity|]. refine (Cp_copy _ _ _ _ _ _ _ (inl [eo_text "1"; ens_br 2]) _ (ect_copy 1 _) _); [lia|].
  econstructor; [reflexivity|]. refine (Cp_copy _ _ _ _ _ _ _ (inl []) _ (ect_copy 2 _) _); [lia|].
  econstructor; [reflexivity|]. constructor.
Qed.
(** Without items the paragraph is given to the other closure, which removes all of it. *)
Example C85_example_or_else :
  GivesIn (tree_events eo_p) (calls [WRepeatContentsOrElse ers_items ers_else]) 3 (inl []) 3 /\
  GivesIn (tree_events eo_p) (calls [WRepeatContentsOrElse ers_items ers_else]) 2
    (inl [eo_open; eo_text "1"; ens_br 2; eo_close]) 3.
Proof.
  split; apply (C85_repeat_contents_or_else _ eo_p eo_open eo_kids eo_close eo_p_proper (In_elem _ _ _ _)).
  - left. exists 3. split; [reflexivity|]. apply (ens_run 30). vm_compute. reflexivity.
  - right. exists 2, ers_number. split; [reflexivity|]. exists (inl [eo_text "1"; ens_br 2]). split; [|reflexivity].
    refine (Cp_copy _ _ _ _ _ _ _ (inl []) _ (ect_copy 2 _) _); [lia|].
    econstructor; [reflexivity|]. constructor.
Qed.
(** A self-closed element is opened; the stream counts two calls. *)
Example C85_example_append : GivesIn (tree_events eo_p') (calls [WAppendContents (WCLive ens_stream)]) 5
  (inl [eo_open; eo_br; ClosingTag (eo_id "p")]) 7.
Proof.
  apply (C85_append_contents _ eo_p' eo_open [] (ClosingTag (eo_id "p")) eo_p'_proper (In_self _ _)).
  exists (inl [eo_br]). split; [apply ecs_content|reflexivity].
Qed.
(** Calling [repeat_contents_or_else] on [br] uses up an item. *)
Definition ect_items : iterator nat := fun _ w => (S w, Some ers_number).
Example C85_example_void :
  GivesIn [eo_br] (calls [WRepeatContents ect_items]) 0 (inl [eo_br]) 0 /\
  GivesIn [eo_br] (calls [WRepeatContentsOrElse ect_items ers_else]) 0 (inl [eo_br]) 1.
Proof.
  split; [apply C85_void_repeat; split; reflexivity|].
  apply C85_void_or_else. right. exists 1, ers_number. split; [reflexivity|]. split; reflexivity.
Qed.
