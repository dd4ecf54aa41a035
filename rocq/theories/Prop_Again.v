(** Property C74 (streams given as contents are not asked again). *)
From Coq Require Import String ZArith List Bool Lia.
From stdpp Require Import gmap.
From Verif Require Import Text Event Input Parse Selector Machine MachineState MachineAgain.
From Verif Require Import SpecTransform SpecTree SpecState SpecStop Prop_Ops Prop_State Prop_Stop.
From Verif Require Import AgainProofs.
Local Open Scope nat_scope.

(** ** C74 Streams given as contents are not asked again

    In [wtransform] a stream given as contents is gone when it has ended or failed.  In
    [atransform] it stays, can be asked again, and then does what it likes: it can give
    events, and change the state of the program. *)

(** The library does not ask it again: the two do the same, with the same result, the same
    state of the program, and the same streams left behind. *)
Theorem C74_not_asked : forall (W : Type) n evs (b : once W) w,
  atransform n evs b w = wtransform n evs b w.
Proof. exact @again_transform. Qed.
Print Assumptions C74_not_asked.

(** So what is proved of [wtransform] holds with such streams: the results, ... *)
Theorem C74_results : forall (W : Type) N n evs (b : once W) w h r,
  atransform n evs b w = WDone h r -> exists p0, Possible N (snd (b w)) p0 /\ Gives evs p0 r.
Proof. exact @again_results. Qed.
Print Assumptions C74_results.

(** ... and that there is one. *)
Theorem C74_returns : forall (W : Type) evs (b : once W) w, Ending (snd (b w)) ->
  exists n h r, atransform n evs b w = WDone h r.
Proof. exact @again_returns. Qed.
Print Assumptions C74_returns.

(** ** Examples *)

(** A stream that ends after one event, and gives events again when it is asked again.  It
    counts how often it is asked. *)
Definition ex_restless (k w : nat) : nat * (option event + stream_error) :=
  (S w, if k =? 1 then inl None else inl (Some (ex_numbered "hr" k))).
Example C74_example_gives_again :
  snd (ex_restless 0 5) = inl (Some (ex_numbered "hr" 0)) /\
  snd (ex_restless 1 6) = inl None /\ snd (ex_restless 2 7) = inl (Some (ex_numbered "hr" 2)).
Proof. repeat split. Qed.
Definition ex_again_program : once nat := fun w =>
  (w, [WPrepend (WCLive ex_restless); WAppend (WCOk (WCLive ex_restless)); ex_number "br"]).
Definition ex_outcome {W B} (o : wout W B) : option (W * B) :=
  match o with WDone h r => Some (snd h, r) | _ => None end.
Lemma ex_outcome_run {W B} (o : wout W B) w r : ex_outcome o = Some (w, r) -> exists h, o = WDone (h, w) r.
Proof.
  destruct o as [| |[h w'] r']; try discriminate. intros H. injection H as -> ->. now exists h.
Qed.
Lemma ex_again_run : exists h, atransform 60 (events ex_forest) ex_again_program 5 =
  WDone (h, 11) (inl [ex_numbered "hr" 0; ex_numbered "br" 7; ex_hr_event; ex_numbered "br" 8;
                      ex_hr_event; ex_numbered "hr" 0]).
Proof. apply ex_outcome_run. vm_compute. reflexivity. Qed.
Example C74_example : exists n h,
  atransform n (events ex_forest) ex_again_program 5 =
  WDone h (inl [ex_numbered "hr" 0; ex_numbered "br" 7; ex_hr_event; ex_numbered "br" 8;
                ex_hr_event; ex_numbered "hr" 0]).
Proof. exists 60. destruct ex_again_run as [h H]. exists (h, 11). exact H. Qed.
(** each of the two streams has been asked twice, and the closure of the selection two times *)
Example C74_example_asked : exists n h r,
  atransform n (events ex_forest) ex_again_program 5 = WDone (h, 11) r.
Proof. exists 60. destruct ex_again_run as [h H]. exists h. eexists. exact H. Qed.
(** It would be noticed: asked a third time, the stream gives an event here but not in
    [MachineState]. *)
Example C74_example_differs : forall e : wengine nat,
  snd (match ane_body e (∅, 0) (WSLive (Some (fun k => ex_restless (S k)))) with
       | WDone h (s, _) => match ane_body e h s with WDone _ a => (s, a) | _ => (s, (s, inl None)) end
       | _ => (WSLive None, (WSLive None, inl None)) end) =
    (WSLive (Some (fun k => ex_restless (S (S (S k))))), inl (Some (ex_numbered "hr" 2))) /\
  match wne_body e (∅, 0) (WSLive (Some (fun k => ex_restless (S k)))) with
  | WDone h (s, _) => wne_body e h s = WDone h (s, inl None)
  | _ => False end.
Proof. intros e. split; reflexivity. Qed.
Example C74_example_returns : forall evs w, exists n h r, atransform n evs es_append w = WDone h r.
Proof. intros evs w. exact (C74_returns nat evs es_append w (es_append_ending w)). Qed.
