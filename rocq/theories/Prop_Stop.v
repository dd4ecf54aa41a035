(** ** C68 Transformations with state return if iterators and content streams end

    In the model with state of C67, without a bound for the sizes of the programs: how long
    an iterator or a content stream is, how many calls a closure makes and how deep closures are nested may
    depend on the state in any way. *)
From Coq Require Import String ZArith List Lia.
From stdpp Require Import gmap.
From Verif Require Import Text Event Input Parse Selector Machine MachineState.
From Verif Require Import SpecTree SpecTransform SpecWork SpecState SpecStop StateProofs4 StopProofs StopProofs2.
From Verif Require Import OpProofs Prop_Ops Prop_State.
Local Open Scope nat_scope.

(** Whatever the events are, nested or not, there is a result. *)
Theorem C68_returns : forall (W : Type) evs (b : once W) w, Ending (snd (b w)) ->
  exists r w', GivesIn evs b w r w' /\
    exists n, forall m, n <= m -> exists h, wtransform m evs b w = WDone (h, w') r.
Proof. exact @ending_returns. Qed.
Print Assumptions C68_returns.

(** All programs without state are of this kind. *)
Theorem C68_stateless : forall (W : Type) (p : pipeline), Ending (W := W) (map stateless_op p).
Proof. exact @ending_stateless. Qed.
Print Assumptions C68_stateless.

(** ** Examples *)

(** A closure that repeats the elements it selects, as often as the number in the world says,
    and numbers the copies, counting on: the more copies there are, the more the next
    element has. *)
Definition es_copies (w : nat) : wop nat :=
  WRepeat (fun k v => (v, if k <? w then Some (fun u => (S u, [ex_wset u])) else None)).
Definition es_select : wop nat :=
  WSelect false (inl (SelTag (eo_id "br"))) (fun _ w => (w, [es_copies w])).
Definition es_builder : once nat := fun w => (w, [es_select]).

Lemma es_ends {W} (b : nat -> once W) n i :
  Ends (fun k v => (v, if i + k <? n then Some (b (i + k)) else None)).
Proof.
  remember (n - i) as d eqn:Ed. revert i Ed. induction d as [|d IH]; intros i Ed; constructor; intros w w' b' E.
  - rewrite (proj2 (Nat.ltb_ge (i + 0) n)) in E by lia. discriminate.
  - eapply ends_ext; [|apply (IH (S i)); lia]. intros k v. cbn [Nat.add]. now rewrite Nat.add_succ_r.
Qed.
Lemma es_ending w : Ending (snd (es_builder w)).
Proof.
  constructor; intros o x [<-|[]] H; simpl in H; [contradiction..|]. destruct H as (k & v & ->).
  constructor; intros o y [<-|[]] H; simpl in H; [| contradiction|].
  - subst. apply (es_ends (fun _ u => (S u, [ex_wset u])) v 0).
  - destruct H as (i & u & u' & b' & u2 & E & ->). destruct (i <? v); [|discriminate].
    injection E as <- <-. constructor; intros o z [<-|[]] H; simpl in H; contradiction.
Qed.
Example C68_example_returns : forall evs w, exists r w', GivesIn evs es_builder w r w'.
Proof. intros evs w. destruct (C68_returns _ evs _ w (es_ending w)) as (r & w' & H & _). eauto. Qed.
Example C68_example : GivesIn (events ex_forest) es_builder 2
  (inl ([ex_numbered "br" 2; ex_numbered "br" 3; ex_hr_event] ++
        [ex_numbered "br" 4; ex_numbered "br" 5; ex_numbered "br" 6; ex_numbered "br" 7; ex_hr_event])) 8.
Proof. apply (ex_run 90). vm_compute. reflexivity. Qed.

(** A stream that gives as many elements as the number was when the call was made, numbered
    with what the number is when it is asked. *)
Definition es_stream (w : nat) : wop nat :=
  WAppendContents (WCLive (fun k u => (2 + u, inl (if k <? w then Some (ex_numbered "hr" u) else None)))).
Definition es_append : once nat := fun w => (S w, [es_stream w; WSelect false (inl (SelTag (eo_id "p"))) (fun _ u => (u, [es_stream u]))]).
Lemma es_stream_ends w i :
  EndsEvents (fun k u => (2 + u, inl (if i + k <? w then Some (ex_numbered "hr" u) else None))).
Proof.
  remember (w - i) as d eqn:Ed. revert i Ed. induction d as [|d IH]; intros i Ed; constructor; intros u u' ev E.
  - rewrite (proj2 (Nat.ltb_ge (i + 0) w)) in E by lia. discriminate.
  - eapply ends_events_ext; [|apply (IH (S i)); lia]. intros k v. cbn [Nat.add]. now rewrite Nat.add_succ_r.
Qed.
Lemma es_stream_ending u : Ending [es_stream u].
Proof.
  constructor; intros o x [<-|[]] H; simpl in H; [contradiction| |contradiction].
  subst. apply (es_stream_ends u 0).
Qed.
Lemma es_append_ending w : Ending (snd (es_append w)).
Proof.
  constructor; intros o x [<-|[<-|[]]] H; simpl in H; try contradiction.
  - subst. apply (es_stream_ends w 0).
  - destruct H as (k & v & ->). apply es_stream_ending.
Qed.
Example C68_example_stream_returns : forall evs w, exists r w', GivesIn evs es_append w r w'.
Proof. intros evs w. destruct (C68_returns _ evs _ w (es_append_ending w)) as (r & w' & H & _). eauto. Qed.
Example C68_example_stream : GivesIn [OpeningTag (eo_id "p") []; ClosingTag (eo_id "p")] es_append 1
  (inl [OpeningTag (eo_id "p") []; ex_numbered "hr" 2; ex_numbered "hr" 6; ex_numbered "hr" 8; ClosingTag (eo_id "p")]) 12.
Proof. apply (ex_run 90). vm_compute. reflexivity. Qed.
