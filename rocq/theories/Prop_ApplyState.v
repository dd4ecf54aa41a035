(** Property C89: the variants of [apply], and selectors that could not be made, with state. *)
From Coq Require Import String ZArith List Lia.
From stdpp Require Import gmap.
From Verif Require Import Text Event Input Parse Selector Machine Template MachineState.
From Verif Require Import SpecText SpecTransform SpecState SpecRepeatState SpecApplyState.
From Verif Require Import ApplyStateProofs Prop_Ops Prop_NaturalState Prop_ContentState Prop_AttrState.
Local Open Scope nat_scope.
Local Open Scope list_scope.

(** ** C89 Applying calls is making them, also with state *)

(** [apply] is the calls that its closure makes, at any place. *)
Theorem C89_apply : forall (W : Type) evs (p p0 q : wpipeline W) w r w',
  GivesIn evs (calls (p ++ WApply p0 :: q)) w r w' <-> GivesIn evs (calls (p ++ p0 ++ q)) w r w'.
Proof. exact @apply_state. Qed.
Print Assumptions C89_apply.

(** So are, as last call, [apply_if], [apply_if_else], [apply_with_option] and
    [apply_with_result], with the calls of the closure that was chosen (none for [apply_if] with
    [false]). *)
Theorem C89_apply_either : forall (W : Type) evs (p p0 : wpipeline W) first other_elem w r w',
  GivesIn evs (calls (p ++ [WApplyEither first p0 other_elem])) w r w' <-> GivesIn evs (calls (p ++ p0)) w r w'.
Proof. exact @either_state. Qed.
Print Assumptions C89_apply_either.

(** With a selector that could not be made, selections of all kinds fail with its error, whatever
    the calls before do.  No closure is called, neither their own nor one of the calls before:
    the state stays as it is. *)
Theorem C89_bad_selector : forall (W : Type) (o : wop W) err, BadSelector o err -> forall evs p w r w',
  GivesIn evs (calls (p ++ [o])) w r w' <-> r = inr err /\ w' = w.
Proof. exact @bad_selector_state. Qed.
Print Assumptions C89_bad_selector.

(** *** Examples *)

Definition eap_title : wop nat := stateless_op eas_title.
Example C89_example :
  GivesIn [eo_br] (calls [WApply [ecs_number; eap_title]; WAppend (WCLive ens_stream)]) 0 (inl [ens_br 7; eo_br]) 3 /\
  GivesIn [eo_br] (calls [ecs_number; WApplyEither true [eap_title] true]) 0 (inl [ens_br 7]) 1 /\
  GivesIn [eo_br] (calls [ecs_number; WApplyEither false [] true]) 0 (inl [ens_br 0]) 1.
Proof.
  split; [|split].
  - apply (C89_apply _ _ [] [ecs_number; eap_title]).
    apply (ens_run 60). vm_compute. reflexivity.
  - apply (C89_apply_either _ _ [ecs_number] [eap_title]). apply C88_example.
  - apply (C89_apply_either _ _ [ecs_number] []). apply ecs_selection. lia.
Qed.
(** Neither the closure that numbers nor the one given to [select_once] is called. *)
Example C89_example_selector :
  GivesIn [eo_br] (calls [ecs_number; WSelectOnce false (inr ecs_err) (fun w => (5 + w, []))]) 0 (inr ecs_err) 0.
Proof.
  apply (C89_bad_selector _ _ _ (BS_select_once false ecs_err (fun w => (5 + w, []))) _ [ecs_number]). split; reflexivity.
Qed.
