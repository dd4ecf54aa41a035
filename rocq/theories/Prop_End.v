(** ** C72 Streams that have ended stay ended

    Many streams of the library ask their source again after it has said that it has no more
    events, for example [Select] after the builder of an element has read to the end.  What a
    stream does when it is asked again is not seen in the result of a transformation unless
    one of them does so.  Here [h] are the cells shared between streams. *)
From Coq Require Import String ZArith List.
From stdpp Require Import gmap.
From Verif Require Import Text Event Input Parse Selector Machine.
From Verif Require Import SpecTree SpecTransform SpecEnd EndProofs Prop_Ops Prop_Meet.
Local Open Scope nat_scope.

(** A stream of whatever kind and state that has ended or failed: asked again it says that it
    has ended, and nothing changes. *)
Theorem C72_stays : forall h s h' s' r, Answers h s h' s' r -> Stops r ->
  forall h2 s2 r2, Answers h' s' h2 s2 r2 <-> h2 = h' /\ s2 = s' /\ r2 = inl None.
Proof. exact stays. Qed.
Print Assumptions C72_stays.

Theorem C72_stays_skip : forall h s h' s' r, AnswersSkip h s h' s' r -> Stops r ->
  forall h2 s2 r2, AnswersSkip h' s' h2 s2 r2 <-> h2 = h' /\ s2 = s' /\ r2 = inl None.
Proof. exact stays_skip. Qed.
Print Assumptions C72_stays_skip.

(** After the end or an error all answers are the end: nothing comes after an error ... *)
Theorem C72_asked : forall h s rs r rs', Asked h s (rs ++ r :: rs') -> Stops r ->
  forall x, In x rs' -> x = inl None.
Proof. exact asked_stays. Qed.
Print Assumptions C72_asked.

(** ... and there are such answers, however often it is asked. *)
Theorem C72_more : forall h s rs r, Asked h s (rs ++ [r]) -> Stops r ->
  forall n, Asked h s (rs ++ r :: repeat (inl None) n).
Proof. exact asked_more. Qed.
Print Assumptions C72_more.

(** ** Examples *)

(** A stream of the user that fails after an event, followed by a paragraph. *)
Definition ee_error : stream_error := SEIdentifier IdEmpty.
Definition ee_user : strm := SUser [eo_br] (Some ee_error).
Definition ee_stream : strm := append_new ee_user (STemplate (events [eo_p]) 0).
Lemma ee_asked : Asked ∅ ee_stream ([inl (Some eo_br)] ++ [inr ee_error]).
Proof.
  eapply Asked_next; [exists 3; reflexivity|]. eapply Asked_next; [exists 3; reflexivity|]. constructor.
Qed.
(** The paragraph is never given. *)
Example C72_example_error : forall n, Asked ∅ ee_stream (inl (Some eo_br) :: inr ee_error :: repeat (inl None) n).
Proof. exact (C72_more ∅ ee_stream [inl (Some eo_br)] (inr ee_error) ee_asked (or_intror (ex_intro _ _ eq_refl))). Qed.
Example C72_example_never : forall rs, Asked ∅ ee_stream ([inl (Some eo_br)] ++ inr ee_error :: rs) ->
  ~ In (inl (Some eo_open)) rs.
Proof.
  intros rs H Hin. pose proof (C72_asked _ _ _ _ _ H (or_intror (ex_intro _ _ eq_refl)) _ Hin). discriminate.
Qed.

(** [Select] on a template in a cell. *)
Definition ee_heap : heap := <[1%positive := Cell (STemplate (events [eo_p]) 4)]> ∅.
Definition ee_select (st : option select_state) : strm :=
  SSelect 1%positive (SelTag (eo_id "p")) em_builder 1 false st.
Lemma ee_select_ends : exists h', Answers ee_heap (ee_select (Some (SelScanning 0))) h' (ee_select None) (inl None).
Proof. eexists. exists 9. vm_compute. reflexivity. Qed.
Example C72_example_select : exists h',
  Answers ee_heap (ee_select (Some (SelScanning 0))) h' (ee_select None) (inl None) /\
  forall h s r, Answers h' (ee_select None) h s r -> h = h' /\ s = ee_select None /\ r = inl None.
Proof.
  destruct ee_select_ends as [h' H]. exists h'. split; [exact H|].
  intros h s r. apply (C72_stays _ _ _ _ _ H). now left.
Qed.
