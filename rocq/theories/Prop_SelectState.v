(** Property C82: closures with state given to [select]. *)
From Coq Require Import String ZArith List Lia.
From stdpp Require Import gmap.
From Verif Require Import Text Event Input Parse Selector Machine Template MachineState.
From Verif Require Import SpecText SpecAttr SpecParse SpecTree SpecTransform SpecOps SpecState SpecSelectState.
From Verif Require Import TreeProofs ErrorProofs SelectionProofs OpProofs ApiProofs ApiProofs2 SelectStateProofs Prop_Selection.
Local Open Scope nat_scope.

(** ** C82 The closure is called once for each selected element, in the state its last call left *)

(** [q] are calls before [select], without state, that give the forest [F]; [xs] are the
    elements of [F] that are selected, in document order; the closure is called in the state
    [w k] for the [k]-th of them, which it turns into [r k].  Afterwards the state is that
    after as many calls as elements were selected. *)
Theorem C82_select : forall (W : Type) e e1 evs q F direct m xs rs out (b : builder W) w p,
  Selection e evs -> typed e q e1 -> ValidArgs q -> Gives evs q (inl (events F)) ->
  ElementSelector m -> Proper F -> SelectsIn direct m F xs rs out ->
  (forall k, k < length xs -> (exists e, typed true (p k) e) /\ ValidArgs (p k)) ->
  Calls_in_turn b w p (length xs) -> Builds_all p xs rs ->
  GivesIn evs (fun v => (v, map stateless_op q ++ [WSelect direct (inl m) b])) (w 0) (inl out) (w (length xs)).
Proof.
  intros W e e1 evs q F direct m xs rs out b w p He Ht Hv Hq Hm HF Hs Hp.
  exact (in_turn_result e e1 evs q F direct m xs Hm HF He Ht Hv Hq p (length xs) Hp rs out b w eq_refl Hs).
Qed.
Print Assumptions C82_select.

(** If the calls for an element fail, its error is the result, and the closure is not called again. *)
Theorem C82_failure : forall (W : Type) e e1 evs q F direct m xs (b : builder W) w p k err,
  Selection e evs -> typed e q e1 -> ValidArgs q -> Gives evs q (inl (events F)) ->
  ElementSelector m -> Proper F -> (exists rs out, SelectsIn direct m F xs rs out) ->
  (forall j, j < S k -> (exists e, typed true (p j) e) /\ ValidArgs (p j)) ->
  Calls_in_turn b w p (S k) -> First_failure p xs k err ->
  GivesIn evs (fun v => (v, map stateless_op q ++ [WSelect direct (inl m) b])) (w 0) (inr err) (w (S k)).
Proof.
  intros W e e1 evs q F direct m xs b w p k err He Ht Hv Hq Hm HF (rs & out & Hs) Hp.
  exact (in_turn_failure e e1 evs q F direct m xs Hm HF He Ht Hv Hq p (S k) Hp rs out b w k err eq_refl Hs).
Qed.
Print Assumptions C82_failure.

(** A closure that numbers the elements, from the number it finds in the state: *)
Definition exs_number : builder nat := fun _ n => (S n, map stateless_op (ex_builder n)).
Example C82_example : forall n,
  GivesIn (events ex_forest) (fun v => (v, [WSelect false (inl ex_sel) exs_number])) n
    (inl [OpeningTag (ex_id "a") []; ex_number (Z.of_nat n); VoidTag (ex_id "br") []; ClosingTag (ex_id "a");
          ex_number (Z.of_nat (S n))]) (S (S n)).
Proof.
  intros n.
  apply (C82_select nat false false (events ex_forest) [] ex_forest false ex_sel [ex_b; ex_b']
           [[ex_number (Z.of_nat n)]; [ex_number (Z.of_nat (S n))]] _ exs_number
           (fun k => k + n) (fun k => ex_builder (k + n))).
  - apply well_nested_events, ex_forest_proper.
  - constructor.
  - apply LawProofs3.empty_valid.
  - apply identity_result, well_nested_events, ex_forest_proper.
  - apply ex_sel_element.
  - apply ex_forest_proper.
  - apply (ex_selects [ex_number (Z.of_nat n)] [ex_number (Z.of_nat (S n))]).
  - intros k _. split; [apply (ex_builder_typed (k + n))|]. apply obtainable_args_valid, ex_builder_args.
  - intros k _. reflexivity.
  - split; [reflexivity|]. intros [|[|[|k]]] x r Hx Hr; try discriminate;
      injection Hx as <-; injection Hr as <-; [apply (ex_build _ n), ex_b_proper|apply (ex_build _ (S n)), ex_b'_proper].
Qed.

(** One that fails when the number is 8: started with 7 it fails for the second element,
    started with 8 for the first. *)
Definition exs_err : stream_error := expected_open None.
Definition exs_calls (n : nat) : pipeline := if Nat.eqb n 8 then [OReplace (CResult (inr exs_err))] else ex_builder n.
Definition exs_until : builder nat := fun _ n => (S n, map stateless_op (exs_calls n)).
Example C82_example_failure :
  GivesIn (events ex_forest) (fun v => (v, [WSelect false (inl ex_sel) exs_until])) 7 (inr exs_err) 9 /\
  GivesIn (events ex_forest) (fun v => (v, [WSelect false (inl ex_sel) exs_until])) 8 (inr exs_err) 9.
Proof.
  assert (forall n, (exists e, typed true (exs_calls n) e) /\ ValidArgs (exs_calls n)) as Hok.
  { intros n. unfold exs_calls. destruct (Nat.eqb n 8).
    - split; [eexists; apply typed_one; constructor|]. eapply valid_args_err. reflexivity.
    - split; [apply (ex_builder_typed n)|]. apply obtainable_args_valid, ex_builder_args. }
  split.
  - apply (C82_failure nat false false (events ex_forest) [] ex_forest false ex_sel [ex_b; ex_b'] exs_until
             (fun k => k + 7) (fun k => exs_calls (k + 7)) 1 exs_err).
    + apply well_nested_events, ex_forest_proper.
    + constructor.
    + apply LawProofs3.empty_valid.
    + apply identity_result, well_nested_events, ex_forest_proper.
    + apply ex_sel_element.
    + apply ex_forest_proper.
    + do 2 eexists. apply (ex_selects [] []).
    + intros j _. apply Hok.
    + intros j _. reflexivity.
    + split.
      * exists ex_b'. split; [reflexivity|]. exists 10. eexists. vm_compute. reflexivity.
      * intros [|j] x Hj Hx; [|lia]. injection Hx as <-. eexists. apply (ex_build _ 7), ex_b_proper.
  - apply (C82_failure nat false false (events ex_forest) [] ex_forest false ex_sel [ex_b; ex_b'] exs_until
             (fun k => k + 8) (fun k => exs_calls (k + 8)) 0 exs_err).
    + apply well_nested_events, ex_forest_proper.
    + constructor.
    + apply LawProofs3.empty_valid.
    + apply identity_result, well_nested_events, ex_forest_proper.
    + apply ex_sel_element.
    + apply ex_forest_proper.
    + do 2 eexists. apply (ex_selects [] []).
    + intros j _. apply Hok.
    + intros j _. reflexivity.
    + split; [|intros; lia]. exists ex_b. split; [reflexivity|]. exists 10. eexists. vm_compute. reflexivity.
Qed.
