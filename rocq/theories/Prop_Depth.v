(** Property C58: the depth of calls does not depend on the document. *)
From Coq Require Import String ZArith List Lia.
From stdpp Require Import gmap.
From Verif Require Import Text Event Input Parse Selector Machine Template Depth.
From Verif Require Import SpecTransform SpecDepth DepthProofs.
Local Open Scope nat_scope.

(** ** C58 The depth of calls does not depend on the document *)

(** [transform_deep loops room]: there is room for [room] calls inside each other, loops
    have at most [loops] iterations.  The room that is enough depends on the program only:
    not on the events, which may be any events, nor on the functions and selectors. *)
Theorem C58_depth : forall p d, Depth p d -> forall evs,
  exists r loops0, Gives evs p r /\
    forall loops room, loops0 <= loops -> 12 * d + 3 <= room ->
    exists h, transform_deep loops room evs p = Done h r.
Proof. exact depth_bounded. Qed.
Print Assumptions C58_depth.

(** Whatever the room, there is no other result. *)
Theorem C58_result : forall loops room evs p h r,
  transform_deep loops room evs p = Done h r -> Gives evs p r.
Proof. exact deep_gives. Qed.
Print Assumptions C58_result.

(** Builders in builders, of depth 6, and documents of any number of elements inside each other. *)
Definition ed_tag : ident := Ident (StaticStr (lit "a")).
Definition ed_pipeline : pipeline :=
  [OSelect false (inl (SelTag ed_tag))
     (fun k => [OSubselect false (inl (SelTag ed_tag)) (fun _ => [OReplace (CResult (inl (CStatic (lit "x"))))]);
                OAddClass (inl ed_tag)]);
   ORepeat [[]; []]].
Lemma ed_depth : Depth ed_pipeline 6.
Proof.
  apply (Depth_cons _ _ 4 1).
  - intros q [k ->]. apply (Depth_cons _ _ 2 1).
    + intros q [k' ->]. apply (Depth_cons _ _ 1 0); [intros q []| |constructor].
      intros c [= <-]. cbn. lia.
    + discriminate.
    + apply (Depth_cons _ _ 0 0); [intros q []|discriminate|constructor].
  - discriminate.
  - apply (Depth_cons _ _ 0 0); [intros q [<-|[<-|[]]]; constructor|discriminate|constructor].
Qed.
Lemma ed_typed : typed false ed_pipeline false.
Proof.
  econstructor; [constructor; intros k; exists true|].
  - econstructor; [constructor; intros k'; exists false|].
    + econstructor; [constructor|constructor].
    + econstructor; [constructor|constructor].
  - econstructor; [constructor|constructor].
    constructor; [eexists; constructor|]. constructor; [eexists; constructor|constructor].
Qed.
Fixpoint ed_events (n : nat) : list event :=
  match n with
  | O => [SelfClosedTag ed_tag []]
  | S n => [OpeningTag ed_tag []] ++ ed_events n ++ [ClosingTag ed_tag]
  end.
Example C58_example : forall n, exists r loops h,
  Gives (ed_events n) ed_pipeline r /\ transform_deep loops 75 (ed_events n) ed_pipeline = Done h r.
Proof.
  intros n. destruct (C58_depth _ _ ed_depth (ed_events n)) as (r & loops & Hg & H).
  destruct (H loops 75 ltac:(lia) ltac:(cbn; lia)) as [h Hh]. exists r, loops, h. auto.
Qed.
(** [run] counts iterations as well; this one has many more than 75. *)
Example C58_example_result :
  match transform_deep 500 75 (ed_events 100) ed_pipeline with
  | Done _ (inl evs) => str_eqb (display_events evs) (lit "<a class=""a"">x</a><a class=""a"">x</a>")
  | _ => false
  end = true.
Proof. vm_compute. reflexivity. Qed.
Example C58_example_loops :
  match transform 75 (ed_events 100) ed_pipeline with OutOfFuel => true | _ => false end = true.
Proof. vm_compute. reflexivity. Qed.
