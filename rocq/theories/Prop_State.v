(** Property C67 (closures with state). *)
From Coq Require Import String ZArith List Bool Lia.
From stdpp Require Import gmap.
From Verif Require Import Text Event Input Parse Selector Machine MachineState.
From Verif Require Import SpecText SpecAttr SpecParse SpecTree SpecTransform SpecOps SpecWork SpecState.
From Verif Require Import TreeProofs ErrorProofs SelectionProofs OpProofs Prop_Ops.
From Verif Require Import StateProofs2 StateProofs3 StateProofs4 StateProofs5 StateProofs6.
Local Open Scope nat_scope.

(** ** C67 Closures with state

    [wtransform] is the transformation where the closures given to the library read and
    change a common state, the world ([W] is any type), each time they are called. *)

(** Every run is the run of a program without state which makes the same calls, and makes
    in every closure calls that the closure could make in some world. *)
Theorem C67_every_run : forall (W : Type) N n evs (b : once W) w, exists p0,
  Possible N (snd (b w)) p0 /\ same_out (wtransform n evs b w) (transform n evs p0).
Proof. exact @unroll. Qed.
Print Assumptions C67_every_run.

(** So what holds of the results of all these programs holds of the result. *)
Theorem C67_results : forall (W : Type) N evs (b : once W) w r w',
  GivesIn evs b w r w' -> exists p0, Possible N (snd (b w)) p0 /\ Gives evs p0 r.
Proof. exact @unroll_gives. Qed.
Print Assumptions C67_results.

Theorem C67_nested : forall (W : Type) N evs (b : once W) w out w', WellNested evs ->
  (forall p0, Possible N (snd (b w)) p0 -> ValidArgs p0 /\ exists e, typed false p0 e) ->
  GivesIn evs b w (inl out) w' -> WellNested out.
Proof. exact @in_world_nested. Qed.
Print Assumptions C67_nested.

(** No state makes the library panic. *)
Theorem C67_no_panic : forall (W : Type) n evs (b : once W) w, wtransform n evs b w <> WPanicked.
Proof. exact @in_world_no_panic. Qed.
Print Assumptions C67_no_panic.

(** There is one result and one world afterwards. *)
Theorem C67_one_result : forall (W : Type) evs (b : once W) w r w' r' w'',
  GivesIn evs b w r w' -> GivesIn evs b w r' w'' -> r = r' /\ w' = w''.
Proof. exact @gives_in_det. Qed.
Print Assumptions C67_one_result.

(** Programs without state do what they do in the model without state. *)
Theorem C67_stateless : forall (W : Type) evs p (w : W) r w',
  GivesIn evs (stateless p) w r w' <-> Gives evs p r /\ w' = w.
Proof. exact @stateless_gives. Qed.
Print Assumptions C67_stateless.

(** A closure is called once where the model without state uses its calls, and finds the
    world that its last call left; so is a stream given as content, once for every event and
    at the end.  A call is given whose closure or stream has state ([Hands]: it keeps, for the [k]-th call, an invariant [I k], and makes with it the calls of [o0]), at
    the end of calls without state.  Then the result is that of [o0], and the world
    afterwards satisfies [I c], where the number [c] of calls is the same for all closures
    with state which make the same calls. *)
Theorem C67_handed_on : forall evs p o0 r, Gives evs (p ++ [o0]) r -> exists c,
  forall (W : Type) (I : nat -> W -> Prop) o w, Hands I o o0 -> I 0 w ->
  exists w', GivesIn evs (fun w => (w, map stateless_op p ++ [o])) w r w' /\ I c w'.
Proof. exact hands_result. Qed.
Print Assumptions C67_handed_on.

(** If all programs that are possible have a common size (see [Sized]) then there is a
    result, and the calls and loop iterations needed are in proportion to the length of the
    template. *)
Theorem C67_returns : forall m, exists C, forall (W : Type) N evs (b : once W) w,
  (forall p0, Possible N (snd (b w)) p0 -> Sized m p0) ->
  exists r w', GivesIn evs b w r w' /\
    forall n, C * (length evs + 1) < n -> exists h, wtransform n evs b w = WDone (h, w') r.
Proof. exact in_world_enough. Qed.
Print Assumptions C67_returns.

(** Finding: otherwise there need not be a result.  With an iterator that never ends a
    transformation of anything but the empty template does not return. *)
Theorem C67_returns_refuted : exists (b : once unit), snd (b tt) = [WRepeat endless] /\
  forall evs n w, WellNested evs -> evs <> [] -> wtransform n evs b w = WOutOfFuel.
Proof. exact (ex_intro _ forever (conj eq_refl (fun evs n w => forever_stays evs n w))). Qed.
Print Assumptions C67_returns_refuted.

(** Nor with a stream as content that never ends. *)
Theorem C67_contents_refuted : forall ev, ev <> Noop -> exists (b : once unit),
  snd (b tt) = [WAppend (WCLive (endless_events ev))] /\
  forall evs n w, WellNested evs -> wtransform n evs b w = WOutOfFuel.
Proof. exact (fun ev H => ex_intro _ (forever_appending ev) (conj eq_refl (fun evs n w He => forever_appending_stays evs n w ev He H))). Qed.
Print Assumptions C67_contents_refuted.

(** ** Examples *)

(** A closure that gives the elements it selects a number, counting in the world. *)
Definition ex_num (w : nat) : value := Encoded (Actual (decimal_z (Z.of_nat w))).
Definition ex_set (w : nat) : op := OSetAttribute (inl (eo_id "title")) (Some (ex_num w)).
Definition ex_wset (w : nat) : wop nat := WSetAttribute (inl (eo_id "title")) (Some (ex_num w)).
Definition ex_number (tag : string) : wop nat :=
  WSelect false (inl (SelTag (eo_id tag))) (fun _ w => (S w, [ex_wset w])).
Definition ex_br : once nat := fun w => (w, [ex_number "br"]).
Definition ex_hr : once nat := fun w => (w, [ex_number "hr"]).

Lemma ex_possible_number N tag o0 : PossibleOp N (ex_number tag) o0 ->
  exists b0, o0 = OSelect false (inl (SelTag (eo_id tag))) b0 /\ forall k, exists w, b0 k = [ex_set w].
Proof.
  intros H. inversion H as [| | | | |direct sel b b0 Hb| | | | | | | | | | | | | | | | | | | | | | | | |].
  subst. exists b0. split; [reflexivity|]. intros k. destruct (Hb k) as [w Hw]. exists w. simpl in Hw.
  inversion Hw as [|o p o0 p0 Ho Hp]. subst. inversion Hp. subst. inversion Ho. reflexivity.
Qed.
Lemma ex_number_ok tag b0 : (forall k, exists w, b0 k = [ex_set w]) ->
  let o := OSelect false (inl (SelTag (eo_id tag))) b0 in
  ValidArgs [o] /\ typed_op false o false.
Proof.
  intros Hb o. split.
  - apply valid_args_wrap; auto. intros q [k ->]. destruct (Hb k) as [w ->].
    eapply command_valid; [reflexivity|]. intros i [= <-]. apply eo_valid. vm_compute. eauto.
  - apply T_select. intros k. destruct (Hb k) as [w ->]. eexists. repeat econstructor.
Qed.
Lemma ex_possible N w p0 : Possible N (snd (both ex_br ex_hr w)) p0 ->
  Sized 2 p0 /\ ValidArgs p0 /\ exists e, typed false p0 e.
Proof.
  simpl. intros H. inversion H as [|o p o0 p1 Ho Hp]. subst. inversion Hp as [|o' p' o1 p2 Ho' Hp']. subst.
  inversion Hp'. subst.
  apply ex_possible_number in Ho as (b0 & -> & Hb0). apply ex_possible_number in Ho' as (b1 & -> & Hb1).
  destruct (ex_number_ok "br" b0 Hb0) as [Hv0 Ht0]. destruct (ex_number_ok "hr" b1 Hb1) as [Hv1 Ht1].
  split; [|split].
  - split; [simpl; lia|]. intros o [<-|[<-|[]]]; (split; [|split; [discriminate|split; [simpl; lia|discriminate]]]).
    + intros q [k ->]. destruct (Hb0 k) as [w' ->]. split; [simpl; lia|]. intros o [<-|[]].
      split; [intros q []|split; [discriminate|split; [simpl; lia|discriminate]]].
    + intros q [k ->]. destruct (Hb1 k) as [w' ->]. split; [simpl; lia|]. intros o [<-|[]].
      split; [intros q []|split; [discriminate|split; [simpl; lia|discriminate]]].
  - now apply (valid_args_app [_] [_]).
  - exists false. repeat (econstructor; [eassumption|]). constructor.
Qed.

Definition ex_hr_event : event := VoidTag (eo_id "hr") [].
Definition ex_forest : list tree := [Leaf eo_br; Leaf ex_hr_event; Leaf eo_br; Leaf ex_hr_event].
Lemma ex_forest_nested : WellNested (events ex_forest).
Proof.
  assert (ProperTree (Leaf ex_hr_event)) as Hr.
  { constructor; [exact I|]. split; [apply eo_valid; vm_compute; eauto|intros a []]. }
  exists ex_forest. split; [|reflexivity].
  intros x [<-|[<-|[<-|[<-|[]]]]]; auto using eo_br_proper.
Qed.
Definition ex_numbered (tag : string) (w : nat) : event :=
  VoidTag (eo_id tag) [Attribute (eo_id "title") (Some (ex_num w))].

Lemma ex_run n evs (b : once nat) w r w' :
  match wtransform n evs b w with WDone (_, w1) r1 => Some (r1, w1) | _ => None end = Some (r, w') ->
  GivesIn evs b w r w'.
Proof. destruct (wtransform n evs b w) as [| |[h w1] r1] eqn:E; try discriminate. intros [= -> ->]. by exists n, h. Qed.

(** The counter is used by both selections as the elements pass. *)
Example C67_example_both : GivesIn (events ex_forest) (both ex_br ex_hr) 5
  (inl [ex_numbered "br" 5; ex_numbered "hr" 6; ex_numbered "br" 7; ex_numbered "hr" 8]) 9.
Proof. apply (ex_run 60). vm_compute. reflexivity. Qed.
Example C67_example_nested : forall out w', GivesIn (events ex_forest) (both ex_br ex_hr) 5 (inl out) w' ->
  WellNested out.
Proof.
  intros out w'. apply (C67_nested nat 0); [apply ex_forest_nested|]. intros p0 H. now apply ex_possible in H.
Qed.
Example C67_example_returns : exists C, forall evs w, exists r w', GivesIn evs (both ex_br ex_hr) w r w' /\
  forall n, C * (length evs + 1) < n -> exists h, wtransform n evs (both ex_br ex_hr) w = WDone (h, w') r.
Proof.
  destruct (C67_returns 2) as [C HC]. exists C. intros evs w. apply (HC nat 0). intros p0 H.
  now apply ex_possible in H.
Qed.
Example C67_example_stateless : forall w : nat,
  GivesIn [eo_br] (stateless [OAppend (CStatic (lit "x"))]) w (inl [eo_br; Data (enc_from_unencoded_static_str (lit "x"))]) w.
Proof. intros w. apply C67_stateless. split; [|reflexivity]. exists 20. eexists. vm_compute. reflexivity. Qed.

(** The counter, from the numbers a closure without state would give; from a run with one
    kind of state the number of calls is known for all. *)
Definition ex_br_numbers : op := OSelect false (inl (SelTag (eo_id "br"))) (fun k => [ex_set (5 + k)]).
Lemma ex_hands : Hands (fun k w => w = 5 + k) (ex_number "br") ex_br_numbers.
Proof. constructor. intros k w ->. exists (S (5 + k)). split; [reflexivity|lia]. Qed.
Lemma ex_gives_numbers : Gives (events ex_forest) ([] ++ [ex_br_numbers])
  (inl [ex_numbered "br" 5; ex_hr_event; ex_numbered "br" 6; ex_hr_event]).
Proof. exists 60. eexists. vm_compute. reflexivity. Qed.
Example C67_example_handed_on : forall (W : Type) (I : nat -> W -> Prop) o w,
  Hands I o ex_br_numbers -> I 0 w -> exists w',
  GivesIn (events ex_forest) (fun w => (w, [o])) w
    (inl [ex_numbered "br" 5; ex_hr_event; ex_numbered "br" 6; ex_hr_event]) w' /\ I 2 w'.
Proof.
  destruct (C67_handed_on _ _ _ _ ex_gives_numbers) as [c Hc].
  assert (c = 2) as ->; [|exact Hc].
  destruct (Hc nat _ _ 5 ex_hands eq_refl) as (w' & Hw' & ->).
  assert (GivesIn (events ex_forest) ex_br 5
    (inl [ex_numbered "br" 5; ex_hr_event; ex_numbered "br" 6; ex_hr_event]) 7) as H7
    by (apply (ex_run 60); vm_compute; reflexivity).
  destruct (C67_one_result _ _ _ _ _ _ _ _ H7 Hw') as [_ E]. lia.
Qed.

(** A stream that gives what the number is when it is asked, and counts on.  Put in front of
    the elements that are numbered it comes first; behind them, last. *)
Definition ex_total (k w : nat) : nat * (option event + stream_error) :=
  match k with 0 => (10 + w, inl (Some (ex_numbered "hr" w))) | _ => (w, inl None) end.
Example C67_example_prepended :
  GivesIn (events ex_forest) (fun w => (w, [ex_number "br"; WPrepend (WCLive ex_total)])) 5
    (inl [ex_numbered "hr" 5; ex_numbered "br" 15; ex_hr_event; ex_numbered "br" 16; ex_hr_event]) 17.
Proof. apply (ex_run 60). vm_compute. reflexivity. Qed.
Example C67_example_appended :
  GivesIn (events ex_forest) (fun w => (w, [ex_number "br"; WAppend (WCOk (WCLive ex_total))])) 5
    (inl [ex_numbered "br" 5; ex_hr_event; ex_numbered "br" 6; ex_hr_event; ex_numbered "hr" 7]) 17.
Proof. apply (ex_run 60). vm_compute. reflexivity. Qed.

(** A stream that fails at its third event, used in place of what is in an element. *)
Definition ex_two (k w : nat) : nat * (option event + stream_error) :=
  (S w, match k with 0 | 1 => inl (Some (ex_numbered "hr" w)) | _ => inr (SEIdentifier IdEmpty) end).
Lemma ex_hands_two : Hands (fun k w => w = 5 + k) (WReplaceContents (WCLive ex_two))
  (OReplaceContents (CStream [ex_numbered "hr" 5; ex_numbered "hr" 6] (Some (SEIdentifier IdEmpty)))).
Proof.
  constructor. constructor. intros k w Hk ->. exists (S (5 + k)). split; [|lia].
  destruct k as [|[|[|k]]]; [reflexivity..|]. simpl in Hk. lia.
Qed.
Example C67_example_stream : forall (W : Type) (I : nat -> W -> Prop) o w,
  Hands I o (OReplaceContents (CStream [ex_numbered "hr" 5; ex_numbered "hr" 6] (Some (SEIdentifier IdEmpty)))) ->
  I 0 w -> exists w', GivesIn (tree_events eo_p) (fun w => (w, [o])) w (inr (SEIdentifier IdEmpty)) w' /\ I 3 w'.
Proof.
  assert (Gives (tree_events eo_p) ([] ++ [OReplaceContents (CStream [ex_numbered "hr" 5; ex_numbered "hr" 6]
    (Some (SEIdentifier IdEmpty)))]) (inr (SEIdentifier IdEmpty))) as H by (exists 60; eexists; vm_compute; reflexivity).
  destruct (C67_handed_on _ _ _ _ H) as [c Hc]. assert (c = 3) as ->; [|exact Hc].
  destruct (Hc nat _ _ 5 ex_hands_two eq_refl) as (w' & Hw' & ->).
  assert (GivesIn (tree_events eo_p) (fun w => (w, [WReplaceContents (WCLive ex_two)])) 5
    (inr (SEIdentifier IdEmpty)) 8) as H8 by (apply (ex_run 60); vm_compute; reflexivity).
  destruct (C67_one_result _ _ _ _ _ _ _ _ H8 Hw') as [_ E]. lia.
Qed.

(** Finding: calls one after the other are no longer the transformations one after the other
    (which they are without state, see C30), since the first is not finished when the second
    begins. *)
Theorem C67_chain_refuted : exists evs mid out out' w w1 w2 w',
  WellNested evs /\ GivesIn evs ex_br w (inl mid) w1 /\ GivesIn mid ex_hr w1 (inl out) w2 /\
  GivesIn evs (both ex_br ex_hr) w (inl out') w' /\ out' <> out.
Proof.
  exists (events ex_forest), [ex_numbered "br" 0; ex_hr_event; ex_numbered "br" 1; ex_hr_event],
    [ex_numbered "br" 0; ex_numbered "hr" 2; ex_numbered "br" 1; ex_numbered "hr" 3],
    [ex_numbered "br" 0; ex_numbered "hr" 1; ex_numbered "br" 2; ex_numbered "hr" 3], 0, 2, 4, 4.
  split; [apply ex_forest_nested|]. split; [apply (ex_run 60); vm_compute; reflexivity|].
  split; [apply (ex_run 60); vm_compute; reflexivity|].
  split; [apply (ex_run 60); vm_compute; reflexivity|]. intros E. vm_compute in E. discriminate.
Qed.
Print Assumptions C67_chain_refuted.
