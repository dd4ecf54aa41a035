(** Property C76 (memory). *)
From Coq Require Import String List Lia.
From stdpp Require Import gmap.
From Verif Require Import Text Event Input Parse Selector Machine.
From Verif Require Import SpecTransform SpecDepth SpecEnd SpecMemory Prop_Depth MemoryProofs.
Local Open Scope nat_scope.

(** ** C76 What a transformation keeps does not depend on the document *)

(** However far a transformation without calls that collect has gone in whatever template, what it
    keeps is bounded by the depth of the program. *)
Theorem C76_kept : forall p d evs h s h' s', Depth p d -> Streaming p ->
  build p ∅ (STemplate evs 0) = Done h s -> Goes h s h' s' ->
  exists n, Keeps List.length h' s' n /\ n <= 8 * 16 ^ d.
Proof. exact kept_all. Qed.
Print Assumptions C76_kept.

(** With such calls this holds of everything but the collected events: the number of streams, of
    buffered events and of collected lists is bounded by the depth of the program. *)
Theorem C76_streams : forall p d evs h s h' s', Depth p d ->
  build p ∅ (STemplate evs 0) = Done h s -> Goes h s h' s' ->
  exists n, Keeps (fun _ => 1) h' s' n /\ n <= 8 * 16 ^ d.
Proof. exact kept_streams. Qed.
Print Assumptions C76_streams.

(** Finding: with such calls it does not hold of the events.  [repeat] keeps all of the selection
    until its last copy is done, even if it makes only one. *)
Theorem C76_collected_refuted : forall ev, ev <> Noop -> forall B, exists evs h s h' s',
  (forall x, In x evs -> x = ev) /\
  build [ORepeat [[]]] ∅ (STemplate evs 0) = Done h s /\ Goes h s h' s' /\
  forall n, Keeps List.length h' s' n -> B < n.
Proof. exact collected. Qed.
Print Assumptions C76_collected_refuted.

(** ** Examples *)

Definition em_pipeline : pipeline :=
  [OSelect false (inl (SelTag ed_tag))
     (fun k => [OSubselect false (inl (SelTag ed_tag)) (fun _ => [OReplace (CResult (inl (CStatic (lit "x"))))]);
                OAddClass (inl ed_tag)]);
   OAppend (CStatic (lit "y"))].
Lemma em_depth : Depth em_pipeline 6.
Proof.
  apply (Depth_cons _ _ 4 1).
  - intros q [k ->]. apply (Depth_cons _ _ 2 1).
    + intros q [k' ->]. apply (Depth_cons _ _ 1 0); [intros q []| |constructor].
      intros c [= <-]. cbn. lia.
    + discriminate.
    + apply (Depth_cons _ _ 0 0); [intros q []|discriminate|constructor].
  - discriminate.
  - apply (Depth_cons _ _ 0 0); [intros q []|intros c [= <-]; cbn; lia|constructor].
Qed.
Ltac em_in := repeat match goal with
  | H : In _ _ |- _ => destruct H as [<-|H]
  | H : In _ [] |- _ => destruct H
  | H : Sub _ _ |- _ => progress cbn [Sub] in H
  | H : exists _, _ = _ |- _ => destruct H as [? ->]
  | H : False |- _ => destruct H
  end.
Lemma em_streaming : Streaming em_pipeline.
Proof.
  intros o H Hc. inversion H as [? ? Hin|? ? q ? Hin Hs Ho]; subst; em_in; try exact Hc.
  clear H. inversion Ho as [? ? Hin|? ? q ? Hin Hs Ho']; subst; em_in; try exact Hc.
  clear Ho. inversion Ho' as [? ? Hin|? ? q ? Hin Hs Ho]; subst; em_in; try exact Hc.
Qed.
(** Documents of any number of elements inside each other. *)
Example C76_example : forall n h s h' s', build em_pipeline ∅ (STemplate (ed_events n) 0) = Done h s ->
  Goes h s h' s' -> exists k, Keeps List.length h' s' k /\ k <= 8 * 16 ^ 6.
Proof. intros n h s h' s'. apply C76_kept; [exact em_depth|exact em_streaming]. Qed.
(** A state of it: [<a>] and [<a>] inside it have been read. *)
Example C76_example_state : exists h s h' s' n, build em_pipeline ∅ (STemplate (ed_events 3) 0) = Done h s /\
  Goes h s h' s' /\ Keeps List.length h' s' n /\ n = 34.
Proof.
  do 5 eexists. split; [vm_compute; reflexivity|]. split; [|split].
  - eapply Goes_skip; [eexists 60; vm_compute; reflexivity|].
    eapply Goes_skip; [eexists 60; vm_compute; reflexivity|].
    apply Goes_no_more.
  - repeat first [eapply K_cell; [vm_compute; reflexivity|]|econstructor].
  - vm_compute. reflexivity.
Qed.
