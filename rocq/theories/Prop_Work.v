(** ** C63 The time transformations take

    [transform_c] is the transformation with a count of its steps: calls of [next_event],
    iterations of loops, calls made by builders.  What a function given by the user, a
    selector or the change of an attribute does inside one step is not counted. *)
From Coq Require Import String ZArith NArith List Lia.
From stdpp Require Import gmap.
From Verif Require Import Text Event Input Parse Selector Machine Template.
From Verif Require Import SpecTree SpecTransform SpecWork MachineCost WorkProofs WorkProofs6 WorkProofs7.
Local Open Scope nat_scope.

(** Counting does not change the result. *)
Theorem C63_same_result : forall n evs p, fst (transform_c n evs p) = transform n evs p.
Proof. exact transform_counts. Qed.
Print Assumptions C63_same_result.

(** There is one constant for all programs of the same size (see [Sized]), whatever their
    selectors, contents and functions, and for all events, nested or not; whether the
    result is a template or an error. *)
Theorem C63_linear : forall m, exists C, forall p, Sized m p -> forall n evs h r k,
  transform_c n evs p = (Done h r, k) -> k <= C * (length evs + 1).
Proof. exact work_linear. Qed.
Print Assumptions C63_linear.

(** Each of them finishes. *)
Theorem C63_finishes : forall m, exists C, forall p, Sized m p -> forall evs,
  exists n h r k, transform_c n evs p = (Done h r, k) /\ k <= C * (length evs + 1).
Proof. exact work_finishes. Qed.
Print Assumptions C63_finishes.

(** The results are at most linearly longer than the template. *)
Theorem C63_length : forall m, exists C, forall p, Sized m p -> forall evs out,
  Gives evs p (inl out) -> length out <= C * (length evs + 1).
Proof. exact work_length. Qed.
Print Assumptions C63_length.

(** Every event of the result counts. *)
Theorem C63_output : forall n evs p h out k,
  transform_c n evs p = (Done h (inl out), k) -> length out <= k.
Proof. exact work_output. Qed.
Print Assumptions C63_output.

(** The constant is exponential in the size of the program. *)
Theorem C63_exponential : forall m, 2 <= m -> exists p, Sized m p /\
  forall evs, WellNested evs -> forall n h r k, transform_c n evs p = (Done h r, k) ->
    2 ^ m * length evs <= k.
Proof. exact work_exponential. Qed.
Print Assumptions C63_exponential.

(** Finding: a program whose builders have no common size, because a builder repeats as
    often as it was called before, takes more than linear time. *)
Theorem C63_linear_refuted : exists p, forall C, exists evs, WellNested evs /\
  forall n h r k, transform_c n evs p = (Done h r, k) -> C * (length evs + 1) < k.
Proof. exact work_unbounded. Qed.
Print Assumptions C63_linear_refuted.

(** Builders in builders, a template and a function: a program of size 3. *)
Definition ew_tag : ident := Ident (StaticStr (lit "a")).
Definition ew_pipeline : pipeline :=
  [OSelect false (inl (SelTag ew_tag))
     (fun k => [OSubselect false (inl (SelTag ew_tag)) (fun _ => [OReplace (CTemplate [VoidTag ew_tag []])]);
                OAddClass (inl ew_tag)]);
   ORepeat [[]; []; []];
   OApplyAsTemplate (fun evs => inl (evs ++ evs))].
Example C63_example_sized : Sized 3 ew_pipeline.
Proof.
  split; [cbn; lia|]. intros o [<-|[<-|[<-|[]]]]; split;
    [|split; [discriminate|split; [cbn; lia|discriminate]]
     | |split; [discriminate|split; [cbn; lia|discriminate]]
     | |split; [discriminate|split; [cbn; lia|]]].
  - intros q [k ->]. split; [cbn; lia|]. intros o [<-|[<-|[]]]; split;
      [|split; [discriminate|split; [cbn; lia|discriminate]]
       | |split; [discriminate|split; [cbn; lia|discriminate]]].
    + intros q [k' ->]. split; [cbn; lia|]. intros o [<-|[]]. split; [intros q []|].
      split; [intros c [= <-]; cbn; lia|]. split; [cbn; lia|discriminate].
    + intros q [].
  - intros q [<-|[<-|[<-|[]]]]; (split; [cbn; lia|intros o []]).
  - intros q [].
  - intros f events result [= <-] [= <-]. rewrite app_length. lia.
Qed.
Fixpoint ew_events (n : nat) : list event :=
  match n with
  | O => []
  | S n => OpeningTag ew_tag [] :: SelfClosedTag ew_tag [] :: ClosingTag ew_tag :: ew_events n
  end.
(** Documents of 30, 60, 120 events *)
Example C63_example :
  map (fun n => match transform_c (100 * n) (ew_events n) ew_pipeline with
                | (Done _ (inl out), k) => (N.of_nat (length out), N.of_nat k)
                | _ => (0, 0)%N
                end) [10; 20; 40]
  = [(180, 2328); (360, 4618); (720, 9198)]%N.
Proof. vm_compute. reflexivity. Qed.
(** The program of the refutation, on 10, 20, 40 elements *)
Example C63_example_unbounded :
  map (fun n => match transform_c (100 * n) (events (brs n)) counting with
                | (Done _ (inl out), k) => (N.of_nat (length out), N.of_nat k)
                | _ => (0, 0)%N
                end) [10; 20; 40]
  = [(45, 895); (190, 3280); (780, 12550)]%N.
Proof. vm_compute. reflexivity. Qed.
(** A doubling made ten times *)
Example C63_example_doubling :
  match transform_c 5000 [VoidTag br []] (doubling 10) with
  | (Done _ (inl out), k) => (N.of_nat (length out), N.of_nat k)
  | _ => (0, 0)%N
  end = (1024, 8350)%N.
Proof. vm_compute. reflexivity. Qed.
