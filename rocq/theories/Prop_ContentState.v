(** Property C84: [append], [prepend], [replace] and [remove] after calls with state, and with
    content streams that have state. *)
From Coq Require Import String ZArith List Lia.
From stdpp Require Import gmap.
From Verif Require Import Text Event Input Parse Selector Machine Template MachineState.
From Verif Require Import SpecText SpecTransform SpecState SpecRepeatState SpecContentState.
From Verif Require Import ContentStateProofs Prop_Ops Prop_NaturalState.
Local Open Scope nat_scope.
Local Open Scope list_scope.

(** ** C84 The order in which content and selection are read *)

(** [append] reads the content after the selection, and not at all if the selection fails. *)
Theorem C84_append : forall (W : Type) evs (p : wpipeline W) c w r w',
  GivesIn evs (calls (p ++ [WAppend c])) w r w' <->
  (exists t w1 r0, GivesIn evs (calls p) w (inl t) w1 /\ ContentRuns c w1 r0 w' /\ r = followed t r0) \/
  (exists e, r = inr e /\ GivesIn evs (calls p) w (inr e) w').
Proof. exact @append_state. Qed.
Print Assumptions C84_append.

(** [prepend] reads the content before anything of the selection, which is not read at all if
    the content fails. *)
Theorem C84_prepend : forall (W : Type) evs (p : wpipeline W) c w r w',
  GivesIn evs (calls (p ++ [WPrepend c])) w r w' <->
  (exists t w1 r0, ContentRuns c w (inl t) w1 /\ GivesIn evs (calls p) w1 r0 w' /\ r = followed t r0) \/
  (exists e, r = inr e /\ ContentRuns c w (inr e) w').
Proof. exact @prepend_state. Qed.
Print Assumptions C84_prepend.

(** So does [replace], which reads the selection to its end, with all that its closures do to
    the state and with its errors, though it gives nothing of it. *)
Theorem C84_replace : forall (W : Type) evs (p : wpipeline W) c w r w',
  GivesIn evs (calls (p ++ [WReplace c])) w r w' <->
  (exists t w1 r0, ContentRuns c w (inl t) w1 /\ GivesIn evs (calls p) w1 r0 w' /\ r = instead t r0) \/
  (exists e, r = inr e /\ ContentRuns c w (inr e) w').
Proof. exact @replace_state. Qed.
Print Assumptions C84_replace.

Theorem C84_remove : forall (W : Type) evs (p : wpipeline W) w r w',
  GivesIn evs (calls (p ++ [WRemove])) w r w' <->
  exists r0, GivesIn evs (calls p) w r0 w' /\ r = instead [] r0.
Proof. exact @remove_state. Qed.
Print Assumptions C84_remove.

(** A selection whose [br] elements get the number that the state is, and a stream that gives
    one [br] in two calls; both count their calls in the state. *)
Definition ecs_number : wop nat := WSelect false (inl (SelTag (eo_id "br"))) (fun _ w => (S w, [ens_number w])).
Lemma ecs_selection w : w < 3 -> GivesIn [eo_br] (calls [ecs_number]) w (inl [ens_br w]) (S w).
Proof. intros Hw. destruct w as [|[|[|w]]]; try lia; apply (ens_run 40); vm_compute; reflexivity. Qed.
Lemma ecs_content w : ContentRuns (WCLive ens_stream) w (inl [eo_br]) (S (S w)).
Proof.
  constructor. refine (LG_event _ _ _ _ _ (inl []) _ _ _ _); [reflexivity|discriminate|]. constructor. reflexivity.
Qed.
Example C84_example :
  GivesIn [eo_br] (calls [ecs_number; WAppend (WCLive ens_stream)]) 0 (inl [ens_br 0; eo_br]) 3 /\
  GivesIn [eo_br] (calls [ecs_number; WPrepend (WCLive ens_stream)]) 0 (inl [eo_br; ens_br 2]) 3 /\
  GivesIn [eo_br] (calls [ecs_number; WReplace (WCLive ens_stream)]) 0 (inl [eo_br]) 3 /\
  GivesIn [eo_br] (calls [ecs_number; WRemove]) 0 (inl []) 1.
Proof.
  split; [|split; [|split]].
  - apply (C84_append _ _ [ecs_number]). left. exists [ens_br 0], 1, (inl [eo_br]).
    split; [apply ecs_selection; lia|]. split; [apply ecs_content|reflexivity].
  - apply (C84_prepend _ _ [ecs_number]). left. exists [eo_br], 2, (inl [ens_br 2]).
    split; [apply ecs_content|]. split; [apply ecs_selection; lia|reflexivity].
  - apply (C84_replace _ _ [ecs_number]). left. exists [eo_br], 2, (inl [ens_br 2]).
    split; [apply ecs_content|]. split; [apply ecs_selection; lia|reflexivity].
  - apply (C84_remove _ _ [ecs_number]). exists (inl [ens_br 0]).
    split; [apply ecs_selection; lia|reflexivity].
Qed.

(** A stream that fails at its second call: [append] has read the selection, [prepend] has not
    and the closure of [select] was not called. *)
Definition ecs_err : stream_error := expected_open None.
Definition ecs_failing : nat -> nat -> nat * stream_result :=
  fun i w => (10 + w, if i =? 0 then inl (Some eo_br) else inr ecs_err).
Lemma ecs_fails w : ContentRuns (WCLive ecs_failing) w (inr ecs_err) (20 + w).
Proof.
  constructor. refine (LG_event _ _ _ _ _ (inr ecs_err) _ _ _ _); [reflexivity|discriminate|]. apply LG_fail. reflexivity.
Qed.
Example C84_example_failure :
  GivesIn [eo_br] (calls [ecs_number; WAppend (WCLive ecs_failing)]) 0 (inr ecs_err) 21 /\
  GivesIn [eo_br] (calls [ecs_number; WPrepend (WCLive ecs_failing)]) 0 (inr ecs_err) 20.
Proof.
  split.
  - apply (C84_append _ _ [ecs_number]). left. exists [ens_br 0], 1, (inr ecs_err).
    split; [apply ecs_selection; lia|]. split; [apply ecs_fails|reflexivity].
  - apply (C84_prepend _ _ [ecs_number]). right. exists ecs_err. split; [reflexivity|apply ecs_fails].
Qed.
