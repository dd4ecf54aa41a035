(** Property C88: calls that change attributes, after calls with state. *)
From Coq Require Import String ZArith List Lia.
From stdpp Require Import gmap.
From Verif Require Import Text Event Input Parse Selector Machine Template MachineState.
From Verif Require Import SpecText SpecTransform SpecState SpecRepeatState SpecNatural.
From Verif Require Import AttrStateProofs Prop_Ops Prop_NaturalState Prop_ContentState.
Local Open Scope nat_scope.
Local Open Scope list_scope.

(** ** C88 Calls that change attributes read the selection once, and change nothing else *)

(** An element with an opening tag: the result and the final state are those of the calls
    before, but for the attributes of the first tag.  So what the closures of these calls do
    is not affected. *)
Theorem C88_element : forall (W : Type) o f, Changes o f -> forall evs (p : wpipeline W) w t b rest w',
  GivesIn evs (calls (p ++ [stateless_op o])) w (inl (OpeningTag t b :: rest)) w' <->
  exists a, b = f a /\ GivesIn evs (calls p) w (inl (OpeningTag t a :: rest)) w'.
Proof. exact @attr_state. Qed.
Print Assumptions C88_element.

(** Void and self-closed elements: the result is the tag with its attributes changed.  What
    comes after the tag is not read, so that the final state may be an earlier one. *)
Theorem C88_leaf : forall (W : Type) o f, Changes o f -> forall evs (p : wpipeline W) w t a rest w',
  (GivesIn evs (calls p) w (inl (VoidTag t a :: rest)) w' ->
   exists w1, GivesIn evs (calls (p ++ [stateless_op o])) w (inl [VoidTag t (f a)]) w1) /\
  (GivesIn evs (calls p) w (inl (SelfClosedTag t a :: rest)) w' ->
   exists w1, GivesIn evs (calls (p ++ [stateless_op o])) w (inl [SelfClosedTag t (f a)]) w1).
Proof. exact @attr_state_leaf. Qed.
Print Assumptions C88_leaf.

(** A failure is the one of the calls before, in the state they left, or says that a start of an
    element was expected. *)
Theorem C88_failure : forall (W : Type) o f, Changes o f -> forall evs (p : wpipeline W) w e w',
  GivesIn evs (calls (p ++ [stateless_op o])) w (inr e) w' ->
  GivesIn evs (calls p) w (inr e) w' \/ exists x, e = expected_open x.
Proof. exact @attr_state_err. Qed.
Print Assumptions C88_failure.

(** If the calls before give something that does not start with an element, or nothing, the
    call fails, at this first event.  (The types allow this: a selection whose closure keeps
    elements counts as an element, whatever it was made in.) *)
Theorem C88_not_element : forall (W : Type) o f, Changes o f -> forall evs (p : wpipeline W) w out w',
  GivesIn evs (calls p) w (inl out) w' ->
  (forall t a, head out <> Some (OpeningTag t a) /\ head out <> Some (SelfClosedTag t a) /\ head out <> Some (VoidTag t a)) ->
  exists w1, GivesIn evs (calls (p ++ [stateless_op o])) w (inr (expected_open (head out))) w1.
Proof. exact @attr_state_other. Qed.
Print Assumptions C88_not_element.

(** With a name that is not an identifier the call fails, whatever the calls before do, and
    none of their closures is called: the state stays as it is. *)
Theorem C88_bad_name : forall (W : Type) o err, BadName o err -> forall evs (p : wpipeline W) w r w',
  GivesIn evs (calls (p ++ [stateless_op o])) w r w' <-> r = inr (SEIdentifier err) /\ w' = w.
Proof. exact @bad_state. Qed.
Print Assumptions C88_bad_name.

(** *** Examples *)

(** The closure numbers the [br] elements; then the [p] gets a title. *)
Definition eas_title : op := OSetAttribute (inl (eo_id "title")) (Some (ens_value 7)).
Definition eas_p (a : attributes) : event := OpeningTag (eo_id "p") a.
Definition eas_close : event := ClosingTag (eo_id "p").
Definition eas_events : list event := [eas_p []; eo_br; eo_br; eas_close].
Lemma eas_changes : Changes eas_title (fun a => set_attribute a (eo_id "title") (Some (ens_value 7))).
Proof. constructor. Qed.
Example C88_example :
  GivesIn eas_events (calls [ecs_number; stateless_op eas_title]) 0
    (inl [eas_p [Attribute (eo_id "title") (Some (ens_value 7))]; ens_br 0; ens_br 1; eas_close]) 2 /\
  GivesIn [eo_br] (calls [ecs_number; stateless_op eas_title]) 0 (inl [ens_br 7]) 1.
Proof.
  split; [|apply (ens_run 60); vm_compute; reflexivity].
  apply (C88_element _ _ _ eas_changes _ [ecs_number]). exists []. split; [reflexivity|].
  apply (ens_run 60). vm_compute. reflexivity.
Qed.
Example C88_example_leaf : exists w1,
  GivesIn [eo_br] (calls [ecs_number; stateless_op eas_title]) 0 (inl [ens_br 7]) w1.
Proof.
  apply (proj1 (C88_leaf _ _ _ eas_changes [eo_br] [ecs_number] 0 (eo_id "br")
    [Attribute (eo_id "title") (Some (ens_value 0))] [] 1)). apply ecs_selection. lia.
Qed.

(** The final state can be an earlier one: two [br] elements, of which the second is not read. *)
Example C88_example_unread :
  GivesIn [eo_br; eo_br] (calls [ecs_number]) 0 (inl [ens_br 0; ens_br 1]) 2 /\
  GivesIn [eo_br; eo_br] (calls [ecs_number; stateless_op eas_title]) 0 (inl [ens_br 7]) 1.
Proof. split; apply (ens_run 60); vm_compute; reflexivity. Qed.

(** A failure in the middle of the selection, and a bad name: the closure is not called. *)
Definition eas_fail : wop nat :=
  WSelect false (inl (SelTag (eo_id "br"))) (fun _ w => (S w, [WReplace (WCLive ecs_failing)])).
Example C88_example_failure :
  GivesIn eas_events (calls [eas_fail; stateless_op eas_title]) 0 (inr ecs_err) 21 /\
  GivesIn eas_events (calls [eas_fail]) 0 (inr ecs_err) 21 /\
  GivesIn eas_events (calls [eas_fail; stateless_op (OSetAttribute (inr IdEmpty) None)]) 0 (inr (SEIdentifier IdEmpty)) 0.
Proof.
  split; [apply (ens_run 60); vm_compute; reflexivity|]. split; [apply (ens_run 60); vm_compute; reflexivity|].
  apply (C88_bad_name _ _ _ (BN_set None IdEmpty) _ [eas_fail]). split; reflexivity.
Qed.

(** A document that starts with text: the closure was not called yet. *)
Example C88_example_not_element :
  (exists w1, GivesIn [eo_text "x"; eo_br] (calls [ecs_number; stateless_op eas_title]) 0
    (inr (expected_open (Some (eo_text "x")))) w1) /\
  GivesIn [eo_text "x"; eo_br] (calls [ecs_number; stateless_op eas_title]) 0
    (inr (expected_open (Some (eo_text "x")))) 0.
Proof.
  split; [|apply (ens_run 60); vm_compute; reflexivity].
  assert (GivesIn [eo_text "x"; eo_br] (calls [ecs_number]) 0 (inl [eo_text "x"; ens_br 0]) 1) as H
    by (apply (ens_run 60); vm_compute; reflexivity).
  apply (C88_not_element _ _ _ eas_changes _ [ecs_number] _ _ _ H).
  intros t a. repeat split; discriminate.
Qed.
