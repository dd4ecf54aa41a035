(** Property C83: iterators, closures and functions with state given to [repeat],
    [repeat_or_else] and [apply_as_template]. *)
From Coq Require Import String ZArith List Lia.
From stdpp Require Import gmap.
From Verif Require Import Text Event Input Parse Selector Machine Template MachineState.
From Verif Require Import SpecText SpecTransform SpecState SpecRepeatState.
From Verif Require Import RepeatStateProofs Prop_Ops Prop_NaturalState.
Local Open Scope nat_scope.
Local Open Scope list_scope.

(** ** C83 The template is read first and once; iterator and closures take turns on copies of it *)

(** [p] are any calls, with state or not. *)
Theorem C83_repeat : forall (W : Type) evs (p : wpipeline W) it w r w',
  GivesIn evs (calls (p ++ [WRepeat it])) w r w' <->
  (exists t w1, GivesIn evs (calls p) w (inl t) w1 /\ Repeats t it 0 w1 r w') \/
  (exists e, r = inr e /\ GivesIn evs (calls p) w (inr e) w').
Proof. exact @repeat_state. Qed.
Print Assumptions C83_repeat.

(** [repeat_or_else] asks the iterator before anything is read.  If it has nothing, the other
    closure makes its calls after [p]; otherwise it is [repeat] with the item already there. *)
Theorem C83_repeat_or_else : forall (W : Type) evs (p : wpipeline W) it b w r w',
  GivesIn evs (calls (p ++ [WRepeatOrElse it b])) w r w' <->
  (exists w1, it 0 w = (w1, None) /\ GivesIn evs (calls_then p b) w1 r w') \/
  (exists w1 b0, it 0 w = (w1, Some b0) /\
     ((exists t w2, GivesIn evs (calls p) w1 (inl t) w2 /\ Copies t it 0 (Some b0) w2 r w') \/
      exists e, r = inr e /\ GivesIn evs (calls p) w1 (inr e) w')).
Proof. exact @repeat_or_else_state. Qed.
Print Assumptions C83_repeat_or_else.

(** The function given to [apply_as_template] is called once, with all events, in the state in
    which reading them ended; it is not called if reading them fails. *)
Theorem C83_apply_as_template : forall (W : Type) evs (p : wpipeline W) f w r w',
  GivesIn evs (calls (p ++ [WApplyAsTemplate f])) w r w' <->
  (exists t w1 res, GivesIn evs (calls p) w (inl t) w1 /\ f w1 t = (w', res) /\ r = applied res) \/
  (exists e, r = inr e /\ GivesIn evs (calls p) w (inr e) w').
Proof. exact @apply_state. Qed.
Print Assumptions C83_apply_as_template.

(** The items number the [br] elements of their copies, the iterator stops when the number has
    become three or more: *)
Definition ers_number : once nat := fun w =>
  (w, [WSelect false (inl (SelTag (eo_id "br"))) (fun _ w => (S w, [ens_number w]))]).
Definition ers_items : iterator nat := fun _ w => (w, if w <? 3 then Some ers_number else None).
Lemma ers_copy w : w < 3 -> GivesIn [eo_br] ers_number w (inl [ens_br w]) (S w).
Proof. intros Hw. destruct w as [|[|[|w]]]; try lia; apply (ens_run 40); vm_compute; reflexivity. Qed.
Lemma ers_repeats : Repeats [eo_br] ers_items 0 0 (inl [ens_br 0; ens_br 1; ens_br 2]) 3.
Proof.
  econstructor; [reflexivity|]. refine (Cp_copy _ _ _ _ _ [ens_br 0] _ (inl [ens_br 1; ens_br 2]) _ (ers_copy 0 _) _); [lia|].
  econstructor; [reflexivity|]. refine (Cp_copy _ _ _ _ _ [ens_br 1] _ (inl [ens_br 2]) _ (ers_copy 1 _) _); [lia|].
  econstructor; [reflexivity|]. refine (Cp_copy _ _ _ _ _ [ens_br 2] _ (inl []) _ (ers_copy 2 _) _); [lia|].
  econstructor; [reflexivity|]. constructor.
Qed.
Example C83_example_repeat : GivesIn [eo_br] (calls [WRepeat ers_items]) 0 (inl [ens_br 0; ens_br 1; ens_br 2]) 3.
Proof.
  apply (C83_repeat _ _ []). left. exists [eo_br], 0. split; [|exact ers_repeats].
  apply (ens_run 40). vm_compute. reflexivity.
Qed.

(** After a call that itself counts up to three while the template is read, [repeat] finds no
    item, but [repeat_or_else] had asked before, in the state zero, and gives one copy, numbered
    three. *)
Definition ers_count : wop nat := WApplyAsTemplate (fun w evs => (3 + w, inl evs)).
Definition ers_else : once nat := fun w => (w, [WRemove]).
Lemma ers_counted w : GivesIn [eo_br] (calls [ers_count]) w (inl [eo_br]) (3 + w).
Proof.
  apply (C83_apply_as_template _ _ []). left. exists [eo_br], w, (inl [eo_br]).
  split; [|split; reflexivity]. apply (ens_run 20). vm_compute. reflexivity.
Qed.
Example C83_example_or_else :
  GivesIn [eo_br] (calls [ers_count; WRepeat ers_items]) 0 (inl []) 3 /\
  GivesIn [eo_br] (calls [ers_count; WRepeatOrElse ers_items ers_else]) 0 (inl [ens_br 3]) 4 /\
  GivesIn [eo_br] (calls [ers_count; WRepeatOrElse ers_items ers_else]) 5 (inl []) 8.
Proof.
  split; [|split].
  - apply (C83_repeat _ _ [ers_count]). left. exists [eo_br], 3. split; [apply (ers_counted 0)|].
    econstructor; [reflexivity|]. constructor.
  - apply (C83_repeat_or_else _ _ [ers_count]). right. exists 0, ers_number. split; [reflexivity|]. left.
    exists [eo_br], 3. split; [apply (ers_counted 0)|]. refine (Cp_copy _ _ _ _ _ [ens_br 3] 4 (inl []) _ _ _).
    + apply (ens_run 40). vm_compute. reflexivity.
    + econstructor; [reflexivity|]. constructor.
  - apply (C83_repeat_or_else _ _ [ers_count]). left. exists 5. split; [reflexivity|].
    apply (ens_run 20). vm_compute. reflexivity.
Qed.

(** If the copy of an item fails the iterator is not called again: the second item fails, and
    the state says that the iterator was called twice. *)
Definition ers_err : stream_error := expected_open None.
Definition ers_failing : iterator nat := fun n w =>
  (S w, Some (fun w => (w, if n =? 1 then [WReplace (WCPlain (CResult (inr ers_err)))] else []))).
Example C83_example_failure : GivesIn [eo_br] (calls [WRepeat ers_failing]) 0 (inr ers_err) 2.
Proof.
  apply (C83_repeat _ _ []). left. exists [eo_br], 0. split; [apply (ens_run 20); vm_compute; reflexivity|].
  econstructor; [reflexivity|]. refine (Cp_copy _ _ _ _ _ [eo_br] 1 (inr ers_err) _ _ _).
  - apply (ens_run 20). vm_compute. reflexivity.
  - econstructor; [reflexivity|]. apply Cp_fail. apply (ens_run 20). vm_compute. reflexivity.
Qed.
