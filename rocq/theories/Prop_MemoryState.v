(** Property C77 (memory, when closures have state). *)
From Coq Require Import String List Lia.
From stdpp Require Import gmap.
From Verif Require Import Text Event Input Parse Selector Machine MachineState.
From Verif Require Import SpecDepth SpecState SpecStop SpecMemoryState Prop_Depth MemoryStateProofs.
Local Open Scope nat_scope.

(** ** C77 What a transformation keeps does not depend on what the closures of the program do *)

(** However far a transformation without calls that collect has gone in whatever template, from
    whatever state, what it keeps is bounded by the depth of the program.  Streams of the program
    and iterators may be endless. *)
Theorem C77_kept : forall {W} (b : once W) d evs w h s h' s',
  (forall v, WDepth (snd (b v)) d) -> (forall v, WStreaming (snd (b v))) ->
  run_builder b (∅, w) (WSTemplate evs 0) = WDone h s -> WGoes h s h' s' ->
  exists n, WKeeps List.length (fst h') s' n /\ n <= 8 * 16 ^ d.
Proof. exact @kept_all. Qed.
Print Assumptions C77_kept.

(** With such calls this holds of everything but the collected events. *)
Theorem C77_streams : forall {W} (b : once W) d evs w h s h' s',
  (forall v, WDepth (snd (b v)) d) ->
  run_builder b (∅, w) (WSTemplate evs 0) = WDone h s -> WGoes h s h' s' ->
  exists n, WKeeps (fun _ => 1) (fst h') s' n /\ n <= 8 * 16 ^ d.
Proof. exact @kept_streams. Qed.
Print Assumptions C77_streams.

(** ** Examples *)

(** The state is a counter.  Every element selected gets a class and counts one; before it an
    endless stream is put, which gives the counter and counts one. *)
Definition es_numbers : live nat := fun _ w => (S w, inl (Some (Data (enc_from_encoded_tendril (decimal_z (Z.of_nat w)))))).
Definition es_program : once nat := fun w =>
  (w, [WSelect false (inl (SelTag ed_tag))
         (fun _ w => (S w, [WAddClass (inl ed_tag); WPrepend (WCOk (WCLive es_numbers))]));
       WAppend (WCPlain (CStatic (lit "y")))]).
Lemma es_depth v : WDepth (snd (es_program v)) 6.
Proof.
  apply (WDepth_cons _ _ 4 1).
  - intros q (k & w & ->). apply (WDepth_cons _ _ 1 2); [intros q []|discriminate|].
    apply (WDepth_cons _ _ 1 0); [intros q []| |constructor]. intros c [= <-]. cbn. lia.
  - discriminate.
  - apply (WDepth_cons _ _ 0 0); [intros q []|intros c [= <-]; cbn; lia|constructor].
Qed.
Lemma es_streaming v : WStreaming (snd (es_program v)).
Proof.
  constructor.
  - intros o [<-|[<-|[]]] [].
  - intros o q [<-|[<-|[]]] H; [|destruct H]. destruct H as (k & w & ->). constructor.
    + intros o [<-|[<-|[]]] [].
    + intros o q [<-|[<-|[]]] [].
Qed.
Example C77_example : forall n w h s h' s',
  run_builder es_program (∅, w) (WSTemplate (ed_events n) 0) = WDone h s -> WGoes h s h' s' ->
  exists k, WKeeps List.length (fst h') s' k /\ k <= 8 * 16 ^ 6.
Proof. intros n w h s h' s'. apply C77_kept; [exact es_depth|exact es_streaming]. Qed.
(** A state of it: the numbers 8 and 9 have been given. *)
Example C77_example_state : exists h s h' s' n,
  run_builder es_program (∅, 7) (WSTemplate (ed_events 3) 0) = WDone h s /\
  WGoes h s h' s' /\ snd h' = 10 /\ WKeeps List.length (fst h') s' n /\ n = 14.
Proof.
  do 5 eexists. split; [vm_compute; reflexivity|]. split; [|split; [|split]].
  - eapply (WGoes_skip 60); [vm_compute; reflexivity|].
    eapply (WGoes_skip 60); [vm_compute; reflexivity|].
    apply WGoes_no_more.
  - reflexivity.
  - repeat first [eapply WK_cell; [vm_compute; reflexivity|]|econstructor].
  - vm_compute. reflexivity.
Qed.
