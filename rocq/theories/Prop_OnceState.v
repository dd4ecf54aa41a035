(** Property C86: closures with state that are called at most once. *)
From Coq Require Import String ZArith List Lia.
From stdpp Require Import gmap.
From Verif Require Import Text Event Input Parse Selector Machine Template MachineState.
From Verif Require Import SpecText SpecAttr SpecParse SpecTree SpecTransform SpecOps SpecState.
From Verif Require Import TreeProofs ErrorProofs SelectionProofs OpProofs ApiProofs ApiProofs2 OnceStateProofs Prop_Selection.
Local Open Scope nat_scope.

(** ** C86 The closure of select_once and subselect_contents is called exactly when there is something to call it for *)

(** [q] are calls before, without state, that give [evs1]; [x] is the first match in that.
    The closure, called in the initial state, makes the calls [p] and leaves [w'].  This is
    the only call: the final state is [w'], also if the calls [p] fail. *)
Theorem C86_select_once : forall e e1 evs q evs1,
  Selection e evs -> typed e q e1 -> ValidArgs q -> Gives evs q (inl evs1) ->
  forall m pre x post p e2 r, WellNested evs1 -> evs1 = pre ++ tree_events x ++ post ->
  ProperTree x -> IsElement x -> (forall ev, In ev pre -> matches m ev = false) -> matches m (start x) = true ->
  typed true p e2 -> ValidArgs p -> Gives (tree_events x) p r ->
  forall (W : Type) (b : once W) w w', b w = (w', map stateless_op p) ->
  GivesIn evs (fun v => (v, map stateless_op q ++ [WSelectOnce false (inl m) b])) w (around pre r post) w'.
Proof. exact once_state. Qed.
Print Assumptions C86_select_once.

(** Without a match it is not called, and the state stays as it is. *)
Theorem C86_no_match : forall e e1 evs q evs1,
  Selection e evs -> typed e q e1 -> ValidArgs q -> Gives evs q (inl evs1) ->
  forall direct m, WellNested evs1 -> (forall ev, In ev evs1 -> matches m ev = false) ->
  forall (W : Type) (b : once W) w,
  GivesIn evs (fun v => (v, map stateless_op q ++ [WSelectOnce direct (inl m) b])) w (inl evs1) w.
Proof. exact once_state_none. Qed.
Print Assumptions C86_no_match.

(** [select_direct_once]: only the top level counts. *)
Theorem C86_select_direct_once : forall e e1 evs q evs1,
  Selection e evs -> typed e q e1 -> ValidArgs q -> Gives evs q (inl evs1) ->
  forall m F1 x F2 p e2 r, evs1 = events (F1 ++ x :: F2) -> Proper (F1 ++ x :: F2) -> IsElement x ->
  (forall y, In y F1 -> matches m (start y) = false) -> matches m (start x) = true ->
  typed true p e2 -> ValidArgs p -> Gives (tree_events x) p r ->
  forall (W : Type) (b : once W) w w', b w = (w', map stateless_op p) ->
  GivesIn evs (fun v => (v, map stateless_op q ++ [WSelectOnce true (inl m) b])) w
    (around (events F1) r (events F2)) w'.
Proof. exact once_direct_state. Qed.
Print Assumptions C86_select_direct_once.

Theorem C86_direct_no_match : forall e e1 evs q evs1,
  Selection e evs -> typed e q e1 -> ValidArgs q -> Gives evs q (inl evs1) ->
  forall m F, evs1 = events F -> Proper F -> (forall y, In y F -> matches m (start y) = false) ->
  forall (W : Type) (b : once W) w,
  GivesIn evs (fun v => (v, map stateless_op q ++ [WSelectOnce true (inl m) b])) w (inl evs1) w.
Proof. exact once_direct_state_none. Qed.
Print Assumptions C86_direct_no_match.

(** [subselect_contents]: called once for an element with an inside, even if that is empty ... *)
Theorem C86_subselect_contents : forall e evs q x,
  Selection e evs -> typed e q true -> ValidArgs q -> Gives evs q (inl (tree_events x)) ->
  forall op kids cl p e2 r, ProperTree x -> Inside x op kids cl ->
  typed false p e2 -> ValidArgs p -> Gives (events kids) p r ->
  forall (W : Type) (b : once W) w w', b w = (w', map stateless_op p) ->
  GivesIn evs (fun v => (v, map stateless_op q ++ [WSubselectContents b])) w (around [op] r [cl]) w'.
Proof. exact contents_state. Qed.
Print Assumptions C86_subselect_contents.

(** ... and not at all for a void element. *)
Theorem C86_subselect_contents_void : forall e evs q x,
  Selection e evs -> typed e q true -> ValidArgs q -> Gives evs q (inl (tree_events x)) ->
  forall t a, ProperTree x -> x = Leaf (VoidTag t a) ->
  forall (W : Type) (b : once W) w,
  GivesIn evs (fun v => (v, map stateless_op q ++ [WSubselectContents b])) w (inl (tree_events x)) w.
Proof. exact contents_state_void. Qed.
Print Assumptions C86_subselect_contents_void.

(** ** Examples *)

(** A closure that takes the next number, and fails for 8. *)
Definition exo_err : stream_error := expected_open None.
Definition exo_calls (n : nat) : pipeline := if Nat.eqb n 8 then [OReplace (CResult (inr exo_err))] else ex_builder n.
Definition exo_next : once nat := fun n => (S n, map stateless_op (exo_calls n)).
Lemma exo_calls_ok e n : (exists e2, typed e (exo_calls n) e2) /\ ValidArgs (exo_calls n).
Proof.
  unfold exo_calls. destruct (Nat.eqb n 8).
  - split; [eexists; apply typed_one; constructor|]. eapply valid_args_err. reflexivity.
  - split; [eexists; apply typed_one; constructor|apply obtainable_args_valid, ex_builder_args].
Qed.

(** select_once: the first of the two elements is numbered, and only one number is taken.
    With 8 the call fails, and has been made all the same. *)
Example C86_example :
  GivesIn (events ex_forest) (fun v => (v, [WSelectOnce false (inl ex_sel) exo_next])) 7
    (inl [OpeningTag (ex_id "a") []; ex_number 7; VoidTag (ex_id "br") []; ClosingTag (ex_id "a");
          SelfClosedTag (ex_id "b") []]) 8 /\
  GivesIn (events ex_forest) (fun v => (v, [WSelectOnce false (inl ex_sel) exo_next])) 8 (inr exo_err) 9.
Proof.
  assert (forall n r, Gives (tree_events ex_b) (exo_calls n) r ->
    GivesIn (events ex_forest) (fun v => (v, [WSelectOnce false (inl ex_sel) exo_next])) n
      (around [OpeningTag (ex_id "a") []] r
              [VoidTag (ex_id "br") []; ClosingTag (ex_id "a"); SelfClosedTag (ex_id "b") []]) (S n)) as H.
  { intros n r Hr. destruct (exo_calls_ok true n) as [[e2 H2] Hv].
    apply (C86_select_once false false (events ex_forest) [] (events ex_forest)
             ltac:(apply well_nested_events, ex_forest_proper) ltac:(constructor) LawProofs3.empty_valid
             ltac:(apply identity_result, well_nested_events, ex_forest_proper)
             ex_sel _ ex_b _ (exo_calls n) e2 r).
    - apply well_nested_events, ex_forest_proper.
    - reflexivity.
    - apply ex_b_proper.
    - exact I.
    - intros ev [<-|[]]. vm_compute. reflexivity.
    - vm_compute. reflexivity.
    - exact H2.
    - exact Hv.
    - exact Hr.
    - reflexivity. }
  split.
  - apply (H 7 (inl [ex_number 7])), (ex_build ex_b 7), ex_b_proper.
  - apply (H 8 (inr exo_err)). exists 10. eexists. vm_compute. reflexivity.
Qed.

(** Nothing to select: no number is taken.  [select_direct_once] does not see the element
    inside, and gives the number to the second. *)
Example C86_example_no_match : forall n,
  GivesIn (events ex_forest) (fun v => (v, [WSelectOnce false (inl (SelTag (ex_id "i"))) exo_next])) n
    (inl (events ex_forest)) n.
Proof.
  intros n. apply (C86_no_match false false (events ex_forest) [] (events ex_forest)).
  - apply well_nested_events, ex_forest_proper.
  - constructor.
  - apply LawProofs3.empty_valid.
  - apply identity_result, well_nested_events, ex_forest_proper.
  - apply well_nested_events, ex_forest_proper.
  - apply List.Forall_forall. repeat constructor.
Qed.
Example C86_example_direct :
  GivesIn (events ex_forest) (fun v => (v, [WSelectOnce true (inl ex_sel) exo_next])) 7
    (inl (tree_events (Elem (ex_id "a") [] [ex_b; ex_br] (ex_id "a")) ++ [ex_number 7])) 8.
Proof.
  destruct (exo_calls_ok true 7) as [[e2 H2] Hv].
  apply (C86_select_direct_once false false (events ex_forest) [] (events ex_forest)
           ltac:(apply well_nested_events, ex_forest_proper) ltac:(constructor) LawProofs3.empty_valid
           ltac:(apply identity_result, well_nested_events, ex_forest_proper)
           ex_sel [Elem (ex_id "a") [] [ex_b; ex_br] (ex_id "a")] ex_b' [] (exo_calls 7) e2 (inl [ex_number 7])).
  - reflexivity.
  - apply ex_forest_proper.
  - exact I.
  - intros y [<-|[]]. vm_compute. reflexivity.
  - vm_compute. reflexivity.
  - exact H2.
  - exact Hv.
  - apply (ex_build ex_b' 7), ex_b'_proper.
  - reflexivity.
Qed.
Example C86_example_direct_no_match : forall n,
  GivesIn (events [Elem (ex_id "a") [] [ex_b; ex_br] (ex_id "a")])
    (fun v => (v, [WSelectOnce true (inl ex_sel) exo_next])) n
    (inl (events [Elem (ex_id "a") [] [ex_b; ex_br] (ex_id "a")])) n.
Proof.
  assert (Proper [Elem (ex_id "a") [] [ex_b; ex_br] (ex_id "a")]) as HF.
  { intros x [<-|[]]. apply ex_forest_proper. by left. }
  intros n. apply (C86_direct_no_match false false _ [] (events [Elem (ex_id "a") [] [ex_b; ex_br] (ex_id "a")])
    ltac:(by apply well_nested_events) ltac:(constructor) LawProofs3.empty_valid
    ltac:(by apply identity_result, well_nested_events) ex_sel [Elem (ex_id "a") [] [ex_b; ex_br] (ex_id "a")]).
  - reflexivity.
  - exact HF.
  - intros y [<-|[]]. vm_compute. reflexivity.
Qed.

(** subselect_contents on [<b/>], which has an empty inside, and on [<br>], which has none. *)
Example C86_example_contents :
  GivesIn (tree_events ex_b') (fun v => (v, [WSubselectContents exo_next])) 7
    (inl [OpeningTag (ex_id "b") []; ex_number 7; ClosingTag (ex_id "b")]) 8 /\
  GivesIn (tree_events ex_b') (fun v => (v, [WSubselectContents exo_next])) 8 (inr exo_err) 9.
Proof.
  assert (forall n r, Gives (events []) (exo_calls n) r ->
    GivesIn (tree_events ex_b') (fun v => (v, [WSubselectContents exo_next])) n
      (around [OpeningTag (ex_id "b") []] r [ClosingTag (ex_id "b")]) (S n)) as H.
  { intros n r Hr. destruct (exo_calls_ok false n) as [[e2 H2] Hv].
    apply (C86_subselect_contents true (tree_events ex_b') [] ex_b'
             ltac:(exists ex_b'; repeat split; apply ex_b'_proper) ltac:(constructor) LawProofs3.empty_valid
             ltac:(apply identity_result, well_nested_tree, ex_b'_proper)
             _ [] _ (exo_calls n) e2 r).
    - apply ex_b'_proper.
    - constructor.
    - exact H2.
    - exact Hv.
    - exact Hr.
    - reflexivity. }
  split.
  - apply (H 7 (inl [ex_number 7])). exists 10. eexists. vm_compute. reflexivity.
  - apply (H 8 (inr exo_err)). exists 10. eexists. vm_compute. reflexivity.
Qed.
Example C86_example_void : forall n,
  GivesIn (tree_events ex_br) (fun v => (v, [WSubselectContents exo_next])) n (inl [VoidTag (ex_id "br") []]) n.
Proof.
  assert (ProperTree ex_br) as Hx.
  { constructor; [exact I|]. split; [apply ex_valid; vm_compute; eauto|apply ex_no_attrs]. }
  intros n. apply (C86_subselect_contents_void true (tree_events ex_br) [] ex_br
    ltac:(exists ex_br; repeat split; apply Hx) ltac:(constructor) LawProofs3.empty_valid
    ltac:(by apply identity_result, well_nested_tree) (ex_id "br") []).
  - exact Hx.
  - reflexivity.
Qed.
