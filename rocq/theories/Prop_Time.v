(** Property C75 (what is known of the state grows). *)
From Coq Require Import String ZArith List Bool Lia.
From stdpp Require Import gmap.
From Verif Require Import Text Event Input Parse Selector Machine MachineState.
From Verif Require Import SpecTree SpecTransform SpecState SpecStop SpecTime.
From Verif Require Import OpProofs Prop_Ops Prop_State TimeProofs TimeProofs2.
Local Open Scope nat_scope.

(** ** C75 Closures that use up a common supply, and programs alike from some time on *)

(** If every item of an iterator and every event of a stream given as contents takes something
    from a supply in the state of the program, and no closure puts anything in, then the
    transformation returns. *)
Theorem C75_returns : forall (W : Type) (m : W -> nat) evs (b : once W) w,
  Drains m (snd (b w)) -> exists r w', GivesIn evs b w r w' /\ m w' <= m (fst (b w)).
Proof. exact @drained_returns. Qed.
Print Assumptions C75_returns.

(** Programs that are alike from a stage [x] on, where more and more is known of the states
    from stage to stage, have the same result, and the states afterwards correspond. *)
Theorem C75_same_result : forall (X W V : Type) (le : X -> X -> Prop) (R : X -> W -> V -> Prop),
  (forall x, le x x) -> (forall x y z, le x y -> le y z -> le x z) ->
  forall evs x (b : once W) (c : once V) w v r, SinceCalls le R x (b w) (c v) ->
  (forall w', GivesIn evs b w r w' -> exists v' y, GivesIn evs c v r v' /\ le x y /\ R y w' v') /\
  (forall v', GivesIn evs c v r v' -> exists w' y, GivesIn evs b w r w' /\ le x y /\ R y w' v').
Proof. exact @since_gives. Qed.
Print Assumptions C75_same_result.

(** They take the same steps. *)
Theorem C75_in_step : forall (X W V : Type) (le : X -> X -> Prop) (R : X -> W -> V -> Prop),
  (forall x, le x x) -> (forall x y z, le x y -> le y z -> le x z) ->
  forall n evs x (b : once W) (c : once V) w v, SinceCalls le R x (b w) (c v) ->
  match wtransform n evs b w, wtransform n evs c v with
  | WOutOfFuel, WOutOfFuel | WPanicked, WPanicked => True
  | WDone h r, WDone h' r' => r = r' /\ exists y, le x y /\ R y (snd h) (snd h')
  | _, _ => False
  end.
Proof. exact @since_in_step. Qed.
Print Assumptions C75_in_step.

(** ** Examples *)

(** An iterator that takes one from the number in the state for each item, down to [n].  It is
    used for copies of elements and, with the same number, for copies of the copies; and there
    is a stream that takes from it. *)
Definition et_take (n : nat) (b : once nat) : iterator nat := fun _ w =>
  if n <? w then (w - 1, Some b) else (w, None).
Definition et_rest (k w : nat) : nat * (option event + stream_error) :=
  if 2 <? w then (w - 1, inl (Some ex_hr_event)) else (w, inl None).
Definition et_set : once nat := fun w => (w, [ex_wset w]).
Definition et_inner : once nat := fun w =>
  (w, [WRepeat (et_take 4 et_set); WAppend (WCLive et_rest)]).
Definition et_program : once nat := fun w =>
  (w, [WSelect false (inl (SelTag (eo_id "br"))) (fun _ w =>
         (w, [WRepeatOrElse (et_take 0 et_inner) et_set]))]).

Lemma et_take_some n b k w w' b' : et_take n b k w = (w', Some b') -> w' < w /\ b' = b.
Proof. unfold et_take. destruct (Nat.ltb_spec n w); [|discriminate]. intros [= <- <-]. split; [lia|auto]. Qed.
Lemma et_take_none n b k w w' : et_take n b k w = (w', None) -> w' = w.
Proof. unfold et_take. destruct (Nat.ltb_spec n w); [discriminate|]. now intros [= <-]. Qed.
Lemma et_rest_some k w w' ev : et_rest k w = (w', inl (Some ev)) -> w' < w.
Proof. unfold et_rest. destruct (Nat.ltb_spec 2 w); [|discriminate]. intros [= <- <-]. lia. Qed.
Lemma et_rest_less k w : fst (et_rest k w) <= w.
Proof. unfold et_rest. destruct (2 <? w); simpl; lia. Qed.
Ltac et_case := constructor; intros; cbn [snd et_set et_inner et_program In] in *;
  repeat match goal with
  | H : _ \/ _ |- _ => destruct H
  | H : exists _, _ |- _ => destruct H
  | H : False |- _ => destruct H
  | H : ?o = _ |- _ => subst o
  | H : _ = ?o |- _ => subst o
  | H : et_take _ _ _ _ = (_, Some _) |- _ => apply et_take_some in H as [? ->]
  | H : et_take _ _ _ _ = (_, None) |- _ => apply et_take_none in H as ->
  | H : et_rest _ _ = _ |- _ => apply et_rest_some in H
  | H : Asks _ _ |- _ => progress cbn [Asks ex_wset] in H
  | H : Puts _ _ |- _ => progress cbn [Puts Reads ex_wset] in H
  | H : Gets _ _ |- _ => progress cbn [Gets ex_wset] in H
  end; try discriminate; try apply et_rest_less; cbn; try lia.
Lemma et_set_drains w : Drains id (snd (et_set w)).
Proof. et_case. Qed.
Lemma et_inner_drains w : Drains id (snd (et_inner w)).
Proof. et_case. apply (et_set_drains w0). Qed.
Lemma et_program_drains w : Drains id (snd (et_program w)).
Proof.
  et_case. et_case; [apply (et_inner_drains 0)|apply et_set_drains].
Qed.
Example C75_example_returns : forall evs w, exists r w', GivesIn evs et_program w r w' /\ w' <= w.
Proof. intros evs w. exact (C75_returns nat id evs et_program w (et_program_drains w)). Qed.
Example C75_example : GivesIn (events ex_forest) et_program 8
  (inl [ex_numbered "br" 6; ex_numbered "br" 5; ex_numbered "br" 4; ex_hr_event; ex_hr_event;
        ex_hr_event; ex_numbered "br" 0; ex_hr_event]) 0.
Proof. apply (ex_run 200). vm_compute. reflexivity. Qed.
(** C68 does not say that it returns: the iterator has always one more, if the number is large
    each time it is asked. *)
Lemma et_not_ends n b : ~ Ends (et_take n b).
Proof.
  intros H. remember (et_take n b) as it eqn:E. revert E. induction H as [it _ IH]. intros ->.
  eapply (IH (S n)); [|reflexivity]. unfold et_take. now rewrite (proj2 (Nat.ltb_lt n (S n)) (le_n _)).
Qed.
Example C75_example_not_ending : forall w, ~ Ending (snd (et_program w)).
Proof.
  intros w H. inversion H as [p _ _ H3 E]. subst.
  assert (Ending [WRepeatOrElse (et_take 0 et_inner) et_set]) as H'.
  { eapply H3; [left; reflexivity|]. simpl. exists 0, 0. reflexivity. }
  inversion H' as [p H1 _ _ E]. subst. apply (et_not_ends 0 et_inner). eapply H1; [left; reflexivity|reflexivity].
Qed.

(** A stream that gives three elements; it fails if the number in the state is smaller than the
    number of times it has been asked.  This does not happen, as it counts the number up
    itself and nothing counts it down: it is like the stream that only gives the elements.
    The stage is a number that the state has reached. *)
Definition et_checked (k w : nat) : nat * (option event + stream_error) :=
  (S w, if k <=? w then inl (if k <? 3 then Some ex_hr_event else None) else inr (SEIdentifier IdEmpty)).
Definition et_plain (k : nat) (v : unit) : unit * (option event + stream_error) :=
  (v, inl (if k <? 3 then Some ex_hr_event else None)).
Definition et_checking : once nat := fun w =>
  (w, [WAppend (WCLive et_checked); WSelect false (inl (SelTag (eo_id "hr"))) (fun _ w => (2 + w, []))]).
Definition et_unchecked : once unit := fun v =>
  (v, [WAppend (WCLive et_plain); WSelect false (inl (SelTag (eo_id "hr"))) (fun _ v => (v, []))]).
Lemma et_since w v : SinceCalls Nat.le (fun y w _ => y <= w) 0 (et_checking w) (et_unchecked v).
Proof.
  apply (I_calls _ _ 0 0); [lia|lia|]. repeat constructor.
  - apply (I_live _ _ _ (fun k y => k <= y)); [lia|intros; lia|].
    intros k y w' v' Hk Hy. exists (S y). unfold et_checked, et_plain. cbn [fst snd].
    rewrite (proj2 (Nat.leb_le k w')) by lia. repeat split; lia.
  - intros y w' v' Hy HR. apply (I_calls _ _ y y); [lia|lia|constructor].
Qed.
Example C75_example_same : forall evs w r,
  (exists w', GivesIn evs et_checking w r w') <-> (exists v', GivesIn evs et_unchecked tt r v').
Proof.
  intros evs w r.
  destruct (C75_same_result nat nat unit Nat.le (fun y w _ => y <= w) Nat.le_refl Nat.le_trans
    evs 0 et_checking et_unchecked w tt r (et_since w tt)) as [H1 H2]. split.
  - intros [w' H]. destruct (H1 w' H) as (v' & y & H' & _). eauto.
  - intros [v' H]. destruct (H2 v' H) as (w' & y & H' & _). eauto.
Qed.
Example C75_example_checking : GivesIn (events ex_forest) et_checking 0
  (inl [eo_br; ex_hr_event; eo_br; ex_hr_event; ex_hr_event; ex_hr_event; ex_hr_event]) 14.
Proof. apply (ex_run 90). vm_compute. reflexivity. Qed.
