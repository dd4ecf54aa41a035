(** ** C70 What a program does is independent of how its closures represent their state

    In the model with state of C67.  [Alike R p q] relates a program whose closures share a
    state of type [W] with one whose closures share a state of type [V]: they make the same
    calls as long as their states are related by [R]. *)
From Coq Require Import String ZArith List Lia.
From stdpp Require Import gmap.
From Verif Require Import Text Event Input Parse Selector Machine MachineState.
From Verif Require Import SpecTree SpecTransform SpecWork SpecState SpecStop SpecAlike.
From Verif Require Import StopProofs2 StopProofs AlikeProofs2 OpProofs Prop_Ops Prop_State Prop_Stop.
Local Open Scope nat_scope.

(** Each gives the result that the other gives, and leaves a state related to the one that
    the other leaves. *)
Theorem C70_same_result : forall (W V : Type) (R : W -> V -> Prop) evs (b : once W) (c : once V) w v r,
  R (fst (b w)) (fst (c v)) -> Alike R (snd (b w)) (snd (c v)) ->
  (forall w', GivesIn evs b w r w' -> exists v', GivesIn evs c v r v' /\ R w' v') /\
  (forall v', GivesIn evs c v r v' -> exists w', GivesIn evs b w r w' /\ R w' v').
Proof. exact @alike_gives. Qed.
Print Assumptions C70_same_result.

(** They take the same number of steps, and none returns if the other does not. *)
Theorem C70_in_step : forall (W V : Type) (R : W -> V -> Prop) n evs (b : once W) (c : once V) w v,
  R (fst (b w)) (fst (c v)) -> Alike R (snd (b w)) (snd (c v)) ->
  match wtransform n evs b w, wtransform n evs c v with
  | WOutOfFuel, WOutOfFuel | WPanicked, WPanicked => True
  | WDone h r, WDone h' r' => r = r' /\ R (snd h) (snd h')
  | _, _ => False
  end.
Proof. exact @alike_in_step. Qed.
Print Assumptions C70_in_step.

(** What all closures of a program keep holds of the state afterwards, whatever the result
    is: the library calls closures only in states that other closures have left. *)
Theorem C70_invariant : forall (W : Type) (I : W -> Prop) evs (b : once W) w r w',
  I (fst (b w)) -> Keeps I (snd (b w)) -> GivesIn evs b w r w' -> I w'.
Proof. exact @keeps_gives. Qed.
Print Assumptions C70_invariant.

(** A program that makes the same calls in all states, whatever it does to the state, gives
    the result of the program without state that makes these calls. *)
Theorem C70_same_calls : forall (W : Type) evs (b : once W) w p r,
  Alike (fun _ (_ : unit) => True) (snd (b w)) (map stateless_op p) ->
  ((exists w', GivesIn evs b w r w') <-> Gives evs p r).
Proof. exact @alike_stateless. Qed.
Print Assumptions C70_same_calls.

(** A program returns if there is one like it whose iterators end (C68), even if its own
    iterators end only in the states that occur. *)
Theorem C70_returns : forall (W V : Type) (R : W -> V -> Prop) evs (b : once W) (c : once V) w v,
  R (fst (b w)) (fst (c v)) -> Alike R (snd (b w)) (snd (c v)) -> Ending (snd (c v)) ->
  exists r w', GivesIn evs b w r w'.
Proof. exact @alike_returns. Qed.
Print Assumptions C70_returns.

(** Every program is like itself. *)
Theorem C70_itself : forall (W : Type) (p : wpipeline W), Alike eq p p.
Proof. exact @alike_refl. Qed.
Print Assumptions C70_itself.

(** ** Examples *)

(** The numbers that have been given, in a list, instead of a counter. *)
Definition al_number (tag : string) : wop (list nat) :=
  WSelect false (inl (SelTag (eo_id tag)))
    (fun _ v => (length v :: v, [WSetAttribute (inl (eo_id "title")) (Some (ex_num (length v)))])).
Definition al_both : once (list nat) := fun v => (v, [al_number "br"; al_number "hr"]).
Definition al_counts (w : nat) (v : list nat) : Prop := w = length v.
Lemma al_alike w v : Alike al_counts (snd (both ex_br ex_hr w)) (snd (al_both v)).
Proof.
  unfold both, ex_br, ex_hr, al_both, ex_number, al_number. cbn [fst snd app].
  apply A_cons; [|apply A_cons; [|apply A_nil]]; apply A_select; intros k; constructor; intros ? ? ->;
    [reflexivity|repeat constructor|reflexivity|repeat constructor].
Qed.
Example C70_example_result : exists v',
  GivesIn (events ex_forest) al_both [0; 0; 0; 0; 0]
    (inl [ex_numbered "br" 5; ex_numbered "hr" 6; ex_numbered "br" 7; ex_numbered "hr" 8]) v' /\
  9 = length v'.
Proof.
  apply (proj1 (C70_same_result nat (list nat) al_counts (events ex_forest) (both ex_br ex_hr) al_both
    5 [0; 0; 0; 0; 0] _ eq_refl (al_alike 5 _)) 9). apply C67_example_both.
Qed.

(** Two closures count on, by two and by four. *)
Definition al_steps : once nat := fun w =>
  (w, [WSelect false (inl (SelTag (eo_id "br"))) (fun _ w => (2 + w, [ex_wset w]));
       WSelect false (inl (SelTag (eo_id "hr"))) (fun _ w => (4 + w, [ex_wset w]))]).
Lemma al_keeps w : Keeps Nat.Even (snd (al_steps w)).
Proof.
  unfold Keeps, al_steps. cbn [fst snd].
  apply A_cons; [|apply A_cons; [|apply A_nil]]; apply A_select; intros i; constructor;
    intros x y [<- [k ->]]; cbn [fst snd]; try (split; [reflexivity|]);
    try (unfold ex_wset; repeat constructor; fail).
  - exists (S k). lia.
  - exists (S (S k)). lia.
Qed.
Example C70_example_invariant : forall evs r w w', Nat.Even w -> GivesIn evs al_steps w r w' -> Nat.Even w'.
Proof. intros evs r w w' H. exact (C70_invariant nat Nat.Even evs al_steps w r w' H (al_keeps w)). Qed.
Example C70_example_even : GivesIn (events ex_forest) al_steps 6
  (inl [ex_numbered "br" 6; ex_numbered "hr" 8; ex_numbered "br" 12; ex_numbered "hr" 14]) 18.
Proof. apply (ex_run 60). vm_compute. reflexivity. Qed.

(** A closure that counts what it selects and removes it. *)
Definition al_remove : once nat := fun w =>
  (w, [WSelect false (inl (SelTag (eo_id "br"))) (fun _ w => (S w, [WRemove]))]).
Example C70_example_same_calls : forall evs w r,
  (exists w', GivesIn evs al_remove w r w') <->
  Gives evs [OSelect false (inl (SelTag (eo_id "br"))) (fun _ => [ORemove])] r.
Proof. intros evs w r. apply C70_same_calls. repeat constructor. Qed.
Example C70_example_counted : GivesIn (events ex_forest) al_remove 0 (inl [ex_hr_event; ex_hr_event]) 2.
Proof. apply (ex_run 60). vm_compute. reflexivity. Qed.

(** The closure also puts in a stream that counts how often it is asked. *)
Definition al_text : event := Data (enc_from_unencoded_static_str (lit "x")).
Definition al_counted (k w : nat) : nat * (option event + stream_error) :=
  (S w, match k with 0 => inl (Some al_text) | _ => inl None end).
Definition al_replace : once nat := fun w =>
  (w, [WSelect false (inl (SelTag (eo_id "br"))) (fun _ w => (w, [WReplace (WCLive al_counted)]))]).
Example C70_example_same_stream : forall evs w r,
  (exists w', GivesIn evs al_replace w r w') <->
  Gives evs [OSelect false (inl (SelTag (eo_id "br"))) (fun _ => [OReplace (CStream [al_text] None)])] r.
Proof.
  intros evs w r. apply C70_same_calls. apply A_cons; [|apply A_nil]. apply A_select. intros i.
  constructor; intros x y _; [exact I|]. apply A_cons; [|apply A_nil]. apply A_replace.
  constructor; [done|]. intros [|[|k]] u v _ Hk; [reflexivity..|]. simpl in Hk. lia.
Qed.
Example C70_example_stream : GivesIn (events ex_forest) al_replace 0 (inl [al_text; ex_hr_event; al_text; ex_hr_event]) 4.
Proof. apply (ex_run 60). vm_compute. reflexivity. Qed.

(** An iterator that ends when as many items have been given as the state says.  The state
    could grow with every item; but here no closure makes it more than three. *)
Definition al_copies (m : nat -> nat) : wop nat :=
  WRepeat (fun k v => (v, if k <? m v then Some (fun u => (u, [ex_wset u])) else None)).
Definition al_repeat (m : nat -> nat) : once nat := fun w =>
  (Nat.min w 3, [WSelect false (inl (SelTag (eo_id "br"))) (fun _ w => (w - 1, [al_copies m]))]
   ).
Lemma al_not_ends it : Ends (W := nat) it -> forall i,
  (forall k v, it k v = (v, if i + k <? v then Some (fun u => (u, [ex_wset u])) else None)) -> False.
Proof.
  induction 1 as [it H IH]. intros i E. eapply (IH (S i) (S i)) with (i := S i).
  - rewrite E, (proj2 (Nat.ltb_lt (i + 0) (S i))) by lia. reflexivity.
  - intros k v. rewrite E. cbn [Nat.add]. now rewrite Nat.add_succ_r.
Qed.
Example C70_example_not_ending : forall w, ~ Ending (snd (al_repeat id w)).
Proof.
  intros w H. inversion H as [p _ _ Hm E]. specialize (Hm _ [al_copies id] (or_introl eq_refl)).
  assert (Ending [al_copies id]) as H1 by (apply Hm; by exists 0, 0).
  inversion H1 as [p' Ha _ _ E']. subst p'. specialize (Ha _ _ (or_introl eq_refl) eq_refl).
  exact (al_not_ends _ Ha 0 (fun k v => eq_refl)).
Qed.
Lemma al_ends m i : (forall v, m v <= 3) ->
  Ends (W := nat) (fun k v => (v, if i + k <? m v then Some (fun u => (u, [ex_wset u])) else None)).
Proof.
  intros Hm. remember (3 - i) as d eqn:Ed. revert i Ed. induction d as [|d IH]; intros i Ed; constructor; intros w w' b' E.
  - rewrite (proj2 (Nat.ltb_ge (i + 0) (m w))) in E by (specialize (Hm w); lia). discriminate.
  - eapply ends_ext; [|apply (IH (S i)); lia]. intros k v. cbn [Nat.add]. now rewrite Nat.add_succ_r.
Qed.
Lemma al_ending w : Ending (snd (al_repeat (fun v => Nat.min v 3) w)).
Proof.
  constructor; intros o x [<-|[]] H; simpl in H; [contradiction..|]. destruct H as (k & v & ->).
  constructor; intros o y [<-|[]] H; simpl in H; [|contradiction|].
  - subst. apply (al_ends (fun v => Nat.min v 3) 0). intros. lia.
  - destruct H as (i & u & u' & b' & u2 & E & ->).
    match type of E with (_, if ?c then _ else _) = _ => destruct c end; [|discriminate].
    injection E as <- <-. constructor; intros o z [<-|[]] H; simpl in H; contradiction.
Qed.
Lemma al_repeat_alike w : Alike (fun w v => w = v /\ w <= 3)
  (snd (al_repeat id w)) (snd (al_repeat (fun v => Nat.min v 3) w)).
Proof.
  unfold al_repeat, al_copies. cbn [fst snd].
  apply A_cons; [|apply A_nil]. apply A_select. intros i. constructor; intros x y [<- Hx]; cbn [fst snd].
  { split; [reflexivity|lia]. }
  apply A_cons; [|apply A_nil]. apply A_repeat. constructor; intros j u u' [<- Hu]; cbn [fst snd]; [auto|].
  rewrite (Nat.min_l u 3) by lia. unfold id. destruct (j <? u); [|apply A_none].
  apply A_some. constructor; intros v v' [<- Hv]; cbn [fst snd]; [auto|].
  unfold ex_wset. repeat constructor.
Qed.
Example C70_example_returns : forall evs w, exists r w', GivesIn evs (al_repeat id) w r w'.
Proof.
  intros evs w. apply (C70_returns nat nat _ evs (al_repeat id) (al_repeat (fun v => Nat.min v 3)) w w
    (conj eq_refl (Nat.le_min_r w 3)) (al_repeat_alike w) (al_ending w)).
Qed.
Example C70_example_copies : GivesIn (events ex_forest) (al_repeat id) 9
  (inl [ex_numbered "br" 2; ex_numbered "br" 2; ex_hr_event; ex_numbered "br" 1; ex_hr_event]) 1.
Proof. apply (ex_run 90). vm_compute. reflexivity. Qed.
