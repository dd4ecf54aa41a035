(** Property C87: closures with state given to [subselect] and [subselect_once]. *)
From Coq Require Import String ZArith List Lia.
From stdpp Require Import gmap.
From Verif Require Import Text Event Input Parse Selector Machine Template MachineState.
From Verif Require Import SpecText SpecAttr SpecParse SpecTree SpecTransform SpecOps SpecState SpecSelectState.
From Verif Require Import TreeProofs ErrorProofs SelectionProofs OpProofs ApiProofs ApiProofs2 OnceStateProofs2 SubselectStateProofs Prop_Selection.
Local Open Scope nat_scope.

(** ** C87 Subselection calls its closure for descendants only *)

(** [q] are calls before, without state, that give the element [x], whose children are
    [kids]; [xs] are those selected among them and their descendants (or, with [direct],
    among them), in document order.  The closure is called once for each. *)
Theorem C87_subselect : forall (W : Type) e evs q x op kids cl direct m xs rs out (b : builder W) w p,
  Selection e evs -> typed e q true -> ValidArgs q -> Gives evs q (inl (tree_events x)) ->
  ElementSelector m -> ProperTree x -> Inside x op kids cl -> SelectsIn direct m kids xs rs out ->
  (forall k, k < length xs -> (exists e, typed true (p k) e) /\ ValidArgs (p k)) ->
  Calls_in_turn b w p (length xs) -> Builds_all p xs rs ->
  GivesIn evs (fun v => (v, map stateless_op q ++ [WSubselect direct (inl m) b])) (w 0)
    (inl (op :: out ++ [cl])) (w (length xs)).
Proof.
  intros W e evs q x op kids cl direct m xs rs out b w p He Ht Hv Hq Hm Hx Hi Hs Hp.
  exact (in_turn_result e evs q x op kids cl direct m xs Hm Hx Hi He Ht Hv Hq p (length xs) Hp rs out b w eq_refl Hs).
Qed.
Print Assumptions C87_subselect.

(** If the calls for one of them fail, the closure is not called again. *)
Theorem C87_subselect_failure : forall (W : Type) e evs q x op kids cl direct m xs (b : builder W) w p k err,
  Selection e evs -> typed e q true -> ValidArgs q -> Gives evs q (inl (tree_events x)) ->
  ElementSelector m -> ProperTree x -> Inside x op kids cl -> (exists rs out, SelectsIn direct m kids xs rs out) ->
  (forall j, j < S k -> (exists e, typed true (p j) e) /\ ValidArgs (p j)) ->
  Calls_in_turn b w p (S k) -> First_failure p xs k err ->
  GivesIn evs (fun v => (v, map stateless_op q ++ [WSubselect direct (inl m) b])) (w 0) (inr err) (w (S k)).
Proof.
  intros W e evs q x op kids cl direct m xs b w p k err He Ht Hv Hq Hm Hx Hi (rs & out & Hs) Hp.
  exact (in_turn_failure e evs q x op kids cl direct m xs Hm Hx Hi He Ht Hv Hq p (S k) Hp rs out b w k err eq_refl Hs).
Qed.
Print Assumptions C87_subselect_failure.

Theorem C87_subselect_void : forall e evs q t a direct m,
  Selection e evs -> typed e q true -> ValidArgs q -> Gives evs q (inl [VoidTag t a]) ->
  ProperTree (Leaf (VoidTag t a)) -> forall (W : Type) (b : builder W) w,
  GivesIn evs (fun v => (v, map stateless_op q ++ [WSubselect direct (inl m) b])) w (inl [VoidTag t a]) w.
Proof. exact subselect_state_void. Qed.
Print Assumptions C87_subselect_void.

(** [subselect_once]: called once, for the first match [y] inside, ... *)
Theorem C87_subselect_once : forall e evs q x,
  Selection e evs -> typed e q true -> ValidArgs q -> Gives evs q (inl (tree_events x)) ->
  forall op kids cl, ProperTree x -> Inside x op kids cl ->
  forall m pre y post p e2 r, events kids = pre ++ tree_events y ++ post ->
  ProperTree y -> IsElement y -> (forall ev, In ev pre -> matches m ev = false) -> matches m (start y) = true ->
  typed true p e2 -> ValidArgs p -> Gives (tree_events y) p r ->
  forall (W : Type) (b : once W) w w', b w = (w', map stateless_op p) ->
  GivesIn evs (fun v => (v, map stateless_op q ++ [WSubselectOnce false (inl m) b])) w
    (around [op] (around pre r post) [cl]) w'.
Proof. exact sub_state. Qed.
Print Assumptions C87_subselect_once.

(** ... or, for [subselect_direct_once], for the first matching child. *)
Theorem C87_subselect_direct_once : forall e evs q x,
  Selection e evs -> typed e q true -> ValidArgs q -> Gives evs q (inl (tree_events x)) ->
  forall op kids cl, ProperTree x -> Inside x op kids cl ->
  forall m F1 y F2 p e2 r, kids = F1 ++ y :: F2 -> IsElement y ->
  (forall z, In z F1 -> matches m (start z) = false) -> matches m (start y) = true ->
  typed true p e2 -> ValidArgs p -> Gives (tree_events y) p r ->
  forall (W : Type) (b : once W) w w', b w = (w', map stateless_op p) ->
  GivesIn evs (fun v => (v, map stateless_op q ++ [WSubselectOnce true (inl m) b])) w
    (around [op] (around (events F1) r (events F2)) [cl]) w'.
Proof. exact sub_direct_state. Qed.
Print Assumptions C87_subselect_direct_once.

(** It is not called if nothing inside matches, even if the element itself does. *)
Theorem C87_once_no_match : forall e evs q x,
  Selection e evs -> typed e q true -> ValidArgs q -> Gives evs q (inl (tree_events x)) ->
  forall op kids cl, ProperTree x -> Inside x op kids cl ->
  forall m, (forall ev, In ev (events kids) -> matches m ev = false) ->
  forall direct (W : Type) (b : once W) w,
  GivesIn evs (fun v => (v, map stateless_op q ++ [WSubselectOnce direct (inl m) b])) w
    (inl (op :: events kids ++ [cl])) w.
Proof. exact sub_state_none. Qed.
Print Assumptions C87_once_no_match.

Theorem C87_direct_once_no_match : forall e evs q x,
  Selection e evs -> typed e q true -> ValidArgs q -> Gives evs q (inl (tree_events x)) ->
  forall op kids cl, ProperTree x -> Inside x op kids cl ->
  forall m, (forall y, In y kids -> matches m (start y) = false) ->
  forall (W : Type) (b : once W) w,
  GivesIn evs (fun v => (v, map stateless_op q ++ [WSubselectOnce true (inl m) b])) w
    (inl (op :: events kids ++ [cl])) w.
Proof. exact sub_direct_state_none. Qed.
Print Assumptions C87_direct_once_no_match.

Theorem C87_once_void : forall e evs q t a direct m,
  Selection e evs -> typed e q true -> ValidArgs q -> Gives evs q (inl [VoidTag t a]) ->
  ProperTree (Leaf (VoidTag t a)) -> forall (W : Type) (b : once W) w,
  GivesIn evs (fun v => (v, map stateless_op q ++ [WSubselectOnce direct (inl m) b])) w (inl [VoidTag t a]) w.
Proof. exact sub_state_void. Qed.
Print Assumptions C87_once_void.

(** ** Examples *)

(** [<b><b>..</b><br><b/></b>]: the outer element would be selected, too, but is not inside. *)
Definition exq_el : tree := Elem (ex_id "b") [] [ex_b; ex_br; ex_b'] (ex_id "b").
Lemma exq_el_proper : ProperTree exq_el.
Proof.
  constructor; [apply ex_valid; vm_compute; eauto|apply ex_no_attrs|apply TextProofs.eq_ignore_spec; vm_compute; reflexivity|].
  intros x [<-|[<-|[<-|[]]]]; [apply ex_b_proper| |apply ex_b'_proper].
  constructor; [exact I|]. split; [apply ex_valid; vm_compute; eauto|apply ex_no_attrs].
Qed.
Lemma exq_selection : Selection true (tree_events exq_el).
Proof. exists exq_el. repeat split; apply exq_el_proper. Qed.
Lemma exq_nothing : Gives (tree_events exq_el) [] (inl (tree_events exq_el)).
Proof. apply identity_result, well_nested_tree, exq_el_proper. Qed.
Lemma exq_inside : Inside exq_el (OpeningTag (ex_id "b") []) [ex_b; ex_br; ex_b'] (ClosingTag (ex_id "b")).
Proof. constructor. Qed.
Definition exq_err : stream_error := expected_open None.
Definition exq_calls (n : nat) : pipeline := if Nat.eqb n 8 then [OReplace (CResult (inr exq_err))] else ex_builder n.
Definition exq_next : once nat := fun n => (S n, map stateless_op (exq_calls n)).
Lemma exq_calls_ok n : (exists e2, typed true (exq_calls n) e2) /\ ValidArgs (exq_calls n).
Proof.
  unfold exq_calls. destruct (Nat.eqb n 8).
  - split; [eexists; apply typed_one; constructor|]. eapply valid_args_err. reflexivity.
  - split; [eexists; apply typed_one; constructor|apply obtainable_args_valid, ex_builder_args].
Qed.
Lemma exq_selects r r' : SelectsIn true ex_sel [ex_b; ex_br; ex_b'] [ex_b; ex_b'] [r; r']
  (r ++ tree_events ex_br ++ r' ++ []).
Proof.
  apply SelD_match; [vm_compute; reflexivity|]. apply SelD_other; [vm_compute; reflexivity|].
  apply SelD_match; [vm_compute; reflexivity|]. constructor.
Qed.

Example C87_example :
  GivesIn (tree_events exq_el) (fun v => (v, [WSubselect true (inl ex_sel) (fun _ => exq_next)])) 3
    (inl [OpeningTag (ex_id "b") []; ex_number 3; VoidTag (ex_id "br") []; ex_number 4; ClosingTag (ex_id "b")]) 5.
Proof.
  apply (C87_subselect nat true (tree_events exq_el) [] exq_el _ _ _ true ex_sel [ex_b; ex_b']
           [[ex_number 3]; [ex_number 4]] _ (fun _ => exq_next) (fun k => k + 3) (fun k => exq_calls (k + 3))
           exq_selection (T_nil _) LawProofs3.empty_valid exq_nothing ex_sel_element exq_el_proper exq_inside (exq_selects _ _)).
  - intros k _. apply exq_calls_ok.
  - intros k _. reflexivity.
  - split; [reflexivity|]. intros [|[|[|k]]] x r Hx Hr; try discriminate;
      injection Hx as <-; injection Hr as <-; [apply (ex_build _ 3), ex_b_proper|apply (ex_build _ 4), ex_b'_proper].
Qed.
(** It fails for the second, or for the first. *)
Example C87_example_failure :
  GivesIn (tree_events exq_el) (fun v => (v, [WSubselect true (inl ex_sel) (fun _ => exq_next)])) 7 (inr exq_err) 9.
Proof.
  apply (C87_subselect_failure nat true (tree_events exq_el) [] exq_el _ _ _ true ex_sel [ex_b; ex_b']
           (fun _ => exq_next) (fun k => k + 7) (fun k => exq_calls (k + 7)) 1 exq_err
           exq_selection (T_nil _) LawProofs3.empty_valid exq_nothing ex_sel_element exq_el_proper exq_inside).
  - do 2 eexists. apply (exq_selects [] []).
  - intros j _. apply exq_calls_ok.
  - intros j _. reflexivity.
  - split.
    + exists ex_b'. split; [reflexivity|]. exists 10. eexists. vm_compute. reflexivity.
    + intros [|j] x Hj Hx; [|lia]. injection Hx as <-. eexists. apply (ex_build _ 7), ex_b_proper.
Qed.

Example C87_example_once :
  GivesIn (tree_events exq_el) (fun v => (v, [WSubselectOnce false (inl ex_sel) exq_next])) 3
    (inl [OpeningTag (ex_id "b") []; ex_number 3; VoidTag (ex_id "br") []; SelfClosedTag (ex_id "b") [];
          ClosingTag (ex_id "b")]) 4 /\
  GivesIn (tree_events exq_el) (fun v => (v, [WSubselectOnce false (inl ex_sel) exq_next])) 8 (inr exq_err) 9.
Proof.
  assert (forall n r, Gives (tree_events ex_b) (exq_calls n) r ->
    GivesIn (tree_events exq_el) (fun v => (v, [WSubselectOnce false (inl ex_sel) exq_next])) n
      (around [OpeningTag (ex_id "b") []] (around [] r [VoidTag (ex_id "br") []; SelfClosedTag (ex_id "b") []])
              [ClosingTag (ex_id "b")]) (S n)) as H.
  { intros n r Hr. destruct (exq_calls_ok n) as [[e2 H2] Hv].
    apply (C87_subselect_once true (tree_events exq_el) [] exq_el exq_selection (T_nil _) LawProofs3.empty_valid exq_nothing
             _ _ _ exq_el_proper exq_inside ex_sel [] ex_b _ (exq_calls n) e2 r); try done.
    apply ex_b_proper. }
  split.
  - apply (H 3 (inl [ex_number 3])), (ex_build ex_b 3), ex_b_proper.
  - apply (H 8 (inr exq_err)). exists 10. eexists. vm_compute. reflexivity.
Qed.
Example C87_example_direct_once :
  GivesIn (tree_events exq_el) (fun v => (v, [WSubselectOnce true (inl ex_sel) exq_next])) 3
    (inl [OpeningTag (ex_id "b") []; ex_number 3; VoidTag (ex_id "br") []; SelfClosedTag (ex_id "b") [];
          ClosingTag (ex_id "b")]) 4.
Proof.
  destruct (exq_calls_ok 3) as [[e2 H2] Hv].
  apply (C87_subselect_direct_once true (tree_events exq_el) [] exq_el exq_selection (T_nil _) LawProofs3.empty_valid exq_nothing
           _ _ _ exq_el_proper exq_inside ex_sel [] ex_b [ex_br; ex_b'] (exq_calls 3) e2 (inl [ex_number 3])); try done.
  apply (ex_build ex_b 3), ex_b_proper.
Qed.
(** No [i] inside; for [a], look only at the children. *)
Example C87_example_no_match : forall n,
  GivesIn (tree_events exq_el) (fun v => (v, [WSubselectOnce false (inl (SelTag (ex_id "i"))) exq_next])) n
    (inl (tree_events exq_el)) n /\
  GivesIn (tree_events exq_el) (fun v => (v, [WSubselectOnce true (inl (SelTag (ex_id "a"))) exq_next])) n
    (inl (tree_events exq_el)) n.
Proof.
  intros n. split.
  - apply (C87_once_no_match true (tree_events exq_el) [] exq_el exq_selection (T_nil _) LawProofs3.empty_valid exq_nothing
             _ _ _ exq_el_proper exq_inside).
    apply List.Forall_forall. repeat constructor.
  - apply (C87_direct_once_no_match true (tree_events exq_el) [] exq_el exq_selection (T_nil _) LawProofs3.empty_valid exq_nothing
             _ _ _ exq_el_proper exq_inside).
    apply List.Forall_forall. repeat constructor.
Qed.
Example C87_example_void : forall n,
  GivesIn [VoidTag (ex_id "br") []] (fun v => (v, [WSubselect false (inl ex_sel) (fun _ => exq_next)])) n
    (inl [VoidTag (ex_id "br") []]) n /\
  GivesIn [VoidTag (ex_id "br") []] (fun v => (v, [WSubselectOnce false (inl ex_sel) exq_next])) n
    (inl [VoidTag (ex_id "br") []]) n.
Proof.
  assert (ProperTree ex_br) as Hx.
  { constructor; [exact I|]. split; [apply ex_valid; vm_compute; eauto|apply ex_no_attrs]. }
  assert (Selection true (tree_events ex_br)) as Hs by (exists ex_br; repeat split; apply Hx).
  assert (Gives (tree_events ex_br) [] (inl (tree_events ex_br))) as Hn by (by apply identity_result, well_nested_tree).
  intros n. split.
  - apply (C87_subselect_void true _ [] _ _ _ _ Hs (T_nil _) LawProofs3.empty_valid Hn Hx).
  - apply (C87_once_void true _ [] _ _ _ _ Hs (T_nil _) LawProofs3.empty_valid Hn Hx).
Qed.
