(** Property C45: transformations return, whatever they are given. *)
From Coq Require Import String ZArith List.
From stdpp Require Import gmap.
From Verif Require Import Text Event Input Parse Selector Machine Template.
From Verif Require Import SpecTransform RobustProofs.
Local Open Scope nat_scope.

(** ** C45 Transformations return, whatever they are given *)

(** No hypotheses: the events need not be nested, the content streams may produce
    anything, the functions and selectors may be any functions, and the calls may even be
    ones that the type checker would reject. *)
Theorem C45_returns : forall evs p, exists r, Gives evs p r /\ forall r', Gives evs p r' -> r' = r.
Proof. exact transform_one_result. Qed.
Print Assumptions C45_returns.

(** From some number of steps on, the bound on the number of steps makes no difference. *)
Theorem C45_enough_steps : forall evs p,
  exists r n, forall m, n <= m -> exists h, transform m evs p = Done h r.
Proof. exact transform_outcome. Qed.
Print Assumptions C45_enough_steps.

(** No source is borrowed twice, no [unwrap] fails. *)
Theorem C45_no_panic : forall n evs p, transform n evs p <> Panicked.
Proof. exact transform_never_panics. Qed.
Print Assumptions C45_no_panic.

Theorem C45_element : forall tag p,
  (exists n h r, with_transformed_element n tag p = Done h r) /\
  forall n, with_transformed_element n tag p <> Panicked.
Proof. exact element_stops. Qed.
Print Assumptions C45_element.

(** Events that no template of the library has, a content stream that breaks off inside an
    element, a function that drops end tags, and nested selections which leave elements
    half read. *)
Definition er_tag (s : string) : ident := Ident (StaticStr (lit s)).
Definition er_events : list event :=
  [OpeningTag (er_tag "a") []; Noop; OpeningTag (er_tag "b") []; ClosingTag (er_tag "c");
   SelfClosedTag (er_tag "a") []; ClosingTag (er_tag "a"); ClosingTag (er_tag "x")].
Definition er_broken : content := CStream [OpeningTag (er_tag "i") []; Noop] None.
Definition er_drop (evs : list event) : list event + stream_error :=
  inl (List.filter (fun ev => match ev with ClosingTag _ => false | _ => true end) evs).
Definition er_pipeline : pipeline :=
  [OSelect false (inl (SelCustom (fun _ => true)))
     (fun k => match k with
               | O => [OSelect true (inl (SelTag (er_tag "b"))) (fun _ => [OAppendContents er_broken])]
               | _ => [OPrepend er_broken; OSubselectContents [ORemove]; ORemoveContents]
               end);
   OApplyAsTemplate er_drop;
   ORepeat [[]; [OSelectOnce true (inl (SelTag (er_tag "a"))) [OSubselectContents []]]]].

Example C45_example_fails :
  Gives er_events er_pipeline (inr (expected_open (Some (ClosingTag (er_tag "x"))))).
Proof. exists 200. eexists. vm_compute. reflexivity. Qed.

(** An element that is never closed is selected up to the end of the events. *)
Example C45_example_unclosed :
  Gives er_events
    [OSelect false (inl (SelTag (er_tag "b"))) (fun _ => [ORepeat [[ORemove]; []]]);
     OSelect false (inl (SelTag (er_tag "b"))) (fun _ => [ORemove])]
    (inl [OpeningTag (er_tag "a") []]).
Proof. exists 200. eexists. vm_compute. reflexivity. Qed.

Example C45_example : exists r, Gives er_events er_pipeline r /\ forall r', Gives er_events er_pipeline r' -> r' = r.
Proof. exact (C45_returns er_events er_pipeline). Qed.
