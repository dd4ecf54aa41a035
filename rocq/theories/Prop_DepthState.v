(** Property C78: the depth of calls when closures have state. *)
From Coq Require Import String ZArith List Lia.
From stdpp Require Import gmap.
From Verif Require Import Text Event Input Parse Selector Machine MachineState DepthState.
From Verif Require Import SpecDepth SpecState SpecStop SpecMemoryState DepthStateProofs.
From Verif Require Import Prop_Depth Prop_MemoryState.
Local Open Scope nat_scope.

(** ** C78 The depth of calls does not depend on what closures with state do *)

(** [wtransform_deep none loops room]: there is room for [room] calls inside each other, loops have
    at most [loops] iterations; if there is no more room then [none] is done.  With a room that
    depends on the program only, it does not matter what [none] is: the room is never used up.  This
    includes transformations that do not return, as the number of iterations can be any. *)
Theorem C78_depth : forall {W} (b : once W) d, (forall v, WDepth (snd (b v)) d) ->
  forall none1 none2 loops room evs w, 12 * d + 3 <= room ->
  wtransform_deep none1 loops room evs b w = wtransform_deep none2 loops room evs b w.
Proof. exact @depth_enough. Qed.
Print Assumptions C78_depth.

(** With this room and enough iterations, the results are those of the transformation. *)
Theorem C78_gives : forall {W} (b : once W) d, (forall v, WDepth (snd (b v)) d) ->
  forall evs w r w', GivesIn evs b w r w' ->
  exists loops0, forall none loops room, loops0 <= loops -> 12 * d + 3 <= room ->
  exists h, wtransform_deep none loops room evs b w = WDone (h, w') r.
Proof. exact @deep_done. Qed.
Print Assumptions C78_gives.

Theorem C78_result : forall {W} (b : once W) d, (forall v, WDepth (snd (b v)) d) ->
  forall none loops room evs w h w' r, 12 * d + 3 <= room ->
  wtransform_deep none loops room evs b w = WDone (h, w') r -> GivesIn evs b w r w'.
Proof. exact @deep_gives. Qed.
Print Assumptions C78_result.

(** ** Examples *)

(** A program with endless streams, which does not return. *)
Example C78_example : forall none1 none2 loops n w,
  wtransform_deep none1 loops 75 (ed_events n) es_program w =
  wtransform_deep none2 loops 75 (ed_events n) es_program w.
Proof. intros. apply (C78_depth es_program 6 es_depth). lia. Qed.
(** With less room it does matter: [wrun 0] has no answer, the other answers. *)
Definition none_fails : wengine nat :=
  WEngine (fun h s => WDone h (s, inl None)) (fun h s => WDone h (s, inl None))
          (fun h s => WDone h (s, inl None)) (fun h s acc => WDone h (inl acc)).
Example C78_example_less :
  wtransform_deep (wrun 0) 10 3 (ed_events 1) es_program 7 <>
  wtransform_deep none_fails 10 3 (ed_events 1) es_program 7.
Proof. vm_compute. discriminate. Qed.

(** One that returns, and counts the elements. *)
Definition ec_program : once nat := fun w =>
  (w, [WSelect false (inl (SelTag ed_tag)) (fun _ w => (S w, [WAddClass (inl ed_tag)]))]).
Lemma ec_depth v : WDepth (snd (ec_program v)) 2.
Proof.
  apply (WDepth_cons _ _ 1 0).
  - intros q (k & w & ->). apply (WDepth_cons _ _ 0 0); [intros q []|discriminate|constructor].
  - discriminate.
  - constructor.
Qed.
Example C78_example_gives : exists h r, wtransform_deep (wrun 0) 50 27 (ed_events 1) ec_program 7 = WDone (h, 8) r.
Proof. do 2 eexists. vm_compute. reflexivity. Qed.
Example C78_example_result : exists r, GivesIn (ed_events 1) ec_program 7 r 8.
Proof.
  destruct C78_example_gives as (h & r & E). exists r.
  eapply (C78_result ec_program 2 ec_depth); [|exact E]. lia.
Qed.
