(** ** C79 Streams that have ended stay ended, when closures have state

    C72 for programs whose closures, iterators and content streams share the state of the
    program.  Here [h] are the cells shared between streams and the state of the program.  A
    content stream of the program might go on when its state has changed; the library does not
    find out, since it does not ask again. *)
From Coq Require Import String ZArith List.
From stdpp Require Import gmap.
From Verif Require Import Text Event Input Parse Selector Machine MachineState.
From Verif Require Import SpecTree SpecTransform SpecEnd SpecEndState EndStateProofs Prop_Ops Prop_Meet Prop_End.
Local Open Scope nat_scope.

(** A stream of whatever kind and state that has ended or failed: asked again, in whatever state
    the program is then, it says that it has ended.  It does not change, neither do the cells,
    and no closure changes the state of the program. *)
Theorem C79_stays : forall {W} (h : wheap W) s h' s' r, WAnswers h s h' s' r -> Stops r ->
  forall w h2 s2 r2, WAnswers (fst h', w) s' h2 s2 r2 <-> h2 = (fst h', w) /\ s2 = s' /\ r2 = inl None.
Proof. exact @stays. Qed.
Print Assumptions C79_stays.

Theorem C79_stays_skip : forall {W} (h : wheap W) s h' s' r, WAnswersSkip h s h' s' r -> Stops r ->
  forall w h2 s2 r2, WAnswersSkip (fst h', w) s' h2 s2 r2 <-> h2 = (fst h', w) /\ s2 = s' /\ r2 = inl None.
Proof. exact @stays_skip. Qed.
Print Assumptions C79_stays_skip.

(** After the end or an error all answers are the end, whatever happens to the state of the
    program in between ... *)
Theorem C79_asked : forall {W} (h : wheap W) s rs r rs', WAsked h s (rs ++ r :: rs') -> Stops r ->
  forall x, In x rs' -> x = inl None.
Proof. exact @asked_stays. Qed.
Print Assumptions C79_asked.

(** ... and there are such answers, however often it is asked. *)
Theorem C79_more : forall {W} (h : wheap W) s rs r, WAsked h s (rs ++ [r]) -> Stops r ->
  forall n, WAsked h s (rs ++ r :: repeat (inl None) n).
Proof. exact @asked_more. Qed.
Print Assumptions C79_more.

(** ** Examples *)

(** The state is a number.  The stream of the program takes one from it and gives an element; it
    fails while the number is zero.  It is followed by a paragraph. *)
Definition ez_live : live nat := fun _ w =>
  match w with 0 => (0, inr ee_error) | S w => (w, inl (Some eo_br)) end.
Definition ez_stream : wstrm nat := wappend_new (WSLive (Some ez_live)) (WSTemplate (events [eo_p]) 0).
Lemma ez_asked : WAsked (∅, 1) ez_stream ([inl (Some eo_br)] ++ [inr ee_error]).
Proof.
  eapply (WAsked_next _ _ _ _ _ 0); [exists 3; reflexivity|].
  eapply (WAsked_next _ _ _ _ _ 0); [exists 3; reflexivity|]. constructor.
Qed.
Example C79_example_error : forall n,
  WAsked (∅, 1) ez_stream (inl (Some eo_br) :: inr ee_error :: repeat (inl None) n).
Proof. exact (C79_more _ ez_stream [inl (Some eo_br)] (inr ee_error) ez_asked (or_intror (ex_intro _ _ eq_refl))). Qed.
(** Though the stream of the program would give elements again. *)
Example C79_example_never : forall rs, WAsked (∅, 1) ez_stream ([inl (Some eo_br)] ++ inr ee_error :: rs) ->
  ~ In (inl (Some eo_br)) rs /\ ~ In (inl (Some eo_open)) rs.
Proof.
  intros rs H. split; intros Hin;
    pose proof (C79_asked _ _ _ _ _ H (or_intror (ex_intro _ _ eq_refl)) _ Hin); discriminate.
Qed.

(** The stream by itself, asked again after the number has been set to five. *)
Example C79_example_stays : WAnswers (∅, 0) (WSLive (Some ez_live)) (∅, 0) (WSLive None) (inr ee_error) /\
  forall h s r, WAnswers (∅, 5) (WSLive None) h s r -> h = (∅, 5) /\ s = @WSLive nat None /\ r = inl None.
Proof.
  assert (WAnswers (∅, 0) (WSLive (Some ez_live)) (∅, 0) (WSLive None) (inr ee_error)) as H
    by (exists 1; reflexivity).
  split; [exact H|]. intros h s r. apply (C79_stays _ _ _ _ _ H). right. now eexists.
Qed.
