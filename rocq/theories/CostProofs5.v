(** Bounds for the whole parser. *)
From Coq Require Import String List NArith Bool Lia PeanoNat.
From Verif Require Import Selector Machine Template Text Event Input Parse ParseCost SpecText SpecAttr SpecLocation SpecParse SpecCost TextProofs ParseProofs CostProofs CostProofs2 CostProofs3 CostProofs4.
Import ListNotations.
Local Open Scope nat_scope.

Fixpoint raw_size (evs : list event) : nat :=
  match evs with
  | [] => 0
  | RawData d :: evs => length (enc_str d) + raw_size evs
  | _ :: evs => raw_size evs
  end.
Lemma raw_load_cons e l : raw_load (e :: l) = raw_load [e] + raw_load l.
Proof. destruct e; cbn [raw_load]; lia. Qed.
Lemma raw_size_cons e l : raw_size (e :: l) = raw_size [e] + raw_size l.
Proof. destruct e; cbn [raw_size]; lia. Qed.
Lemma raw_load_square l : raw_load l <= raw_size l * raw_size l.
Proof.
  induction l as [|e l IH]; [reflexivity|]. rewrite raw_load_cons, raw_size_cons.
  assert (raw_load [e] <= raw_size [e] * raw_size [e]).
  { destruct e; cbn [raw_load raw_size]; try lia. rewrite !Nat.add_0_r. apply Nat.mul_le_mono_r, brackets_length. }
  nia.
Qed.
Lemma not_raw e : is_raw_data e = false -> raw_load [e] = 0 /\ raw_size [e] = 0.
Proof. destruct e; try easy; auto. Qed.

Definition is_raw_mode (m : mode) : bool := match m with ModeRawData _ => true | ModeData => false end.
Definition pot (it : iter) : nat :=
  1500 * length (content (it_rest it)) + 4 * stack_cost (it_stack it) + (if is_raw_mode (it_mode it) then 500 else 0).
Definition credit (it : iter) : nat := if is_raw_mode (it_mode it) then 0 else 24 * closing (it_rest it).
Definition short_mode (m : mode) : Prop := forall t, m = ModeRawData t -> length t <= 8.

Lemma sp_finalize it : Sp (finalize_c it) (fun _ k => k <= 3 * length (content (it_rest it)) + 2).
Proof.
  unfold finalize_c, input_end_c. eapply sp_bind; [eapply (sp_advanced _ _ []); now rewrite app_nil_r|].
  intros j k [_ ->]. apply sp_ret. lia.
Qed.
Lemma stack_cost_cons e l : stack_cost (e :: l) = S (length (id_str (loc_value e))) + stack_cost l.
Proof. reflexivity. Qed.
Definition NextCost (it : iter) (x : option (presult event) * iter) (k : nat) : Prop :=
  match x with
  | (Some (POk ev), it') => k + 2 + pot it' + credit it <= pot it + 3 * raw_load [ev] + credit it' /\
      short_mode (it_mode it') /\
      (exists w, content (it_rest it) = w ++ content (it_rest it') /\ raw_size [ev] <= length w) /\
      (it_mode it = ModeData -> is_raw_data ev = false) /\
      (is_raw_mode (it_mode it') = true -> RawAhead (content (it_rest it)))
  | _ => k + credit it <= pot it + 50
  end.
Lemma credit_le it : credit it <= 24 * length (content (it_rest it)).
Proof. unfold credit. destruct (is_raw_mode _); [lia|]. pose proof (closing_length (it_rest it)). lia. Qed.
Lemma is_empty_content i : input_is_empty i = false -> content i <> [].
Proof. unfold input_is_empty. now destruct (content i). Qed.

Lemma sp_next it : short_mode (it_mode it) -> Sp (iter_next_c it) (NextCost it).
Proof.
  intros Hshort. unfold iter_next_c. pose proof (credit_le it) as Hcr.
  destruct (input_is_empty (it_rest it)) eqn:Ee.
  { assert (content (it_rest it) = []) as E0 by (unfold input_is_empty in Ee; now destruct (content (it_rest it))).
    destruct (it_stack it) as [|e st] eqn:Est; apply sp_costs; cbn [NextCost]; unfold pot; rewrite ?Est, E0 in *; cbn [length] in *; lia. }
  apply is_empty_content in Ee. destruct it as [rest m stack opt]. cbn [it_rest it_mode it_stack it_options] in *.
  assert (Hl1 : 1 <= length (content rest)) by (destruct (content rest); [easy|cbn; lia]).
  destruct m as [|t].
  - cbn [parse_c]. eapply sp_bind; [apply sp_data_mode; exact Ee|].
    intros [p| | |] k H; cbn [DataCost] in H.
    2:{ eapply sp_bind; [apply sp_finalize|]. intros it' k' Hk'. apply sp_ret. cbn [NextCost it_rest] in *.
        unfold pot. cbn [it_rest]. lia. }
    2,3: apply sp_ret; cbn [NextCost it_rest]; unfold pot; cbn [it_rest]; lia.
    destruct H as (w & E & Hw & Hk & Hc & Hm & Ht & Hr). destruct p as [[loc ev] m' r]. cbn [p_rest p_event loc_value p_next_mode] in *.
    assert (Hw1 : 1 <= length w) by (destruct w; [easy|cbn; lia]).
    assert (El : length (content rest) = length w + length (content r)) by (rewrite E; sizes).
    assert (Hshort' : short_mode m') by (intros t Et; now apply Hm).
    destruct (not_raw ev Hr) as [Hl0 Hs0].
    assert (Hraw : is_raw_mode m' = true -> RawAhead (content rest)) by (destruct m' as [|t]; [easy|intros _; now apply (Hm t)]).
    (* events that are not tags of the stack *)
    assert (Hplain : forall st', 4 * stack_cost st' <= 4 * stack_cost stack + 5 * length w + 4 ->
      forall k', k' <= 10 * length w + 10 ->
      NextCost (Iter rest ModeData stack opt) (Some (POk ev), Iter r m' st' opt) (k + k')).
    { intros st' Hst k' Hk'. cbn [NextCost it_mode it_rest]. rewrite Hl0, Hs0. split; [|split; [exact Hshort'|split; [exists w; split; [exact E|lia]|auto]]].
      unfold pot, credit. cbn [it_rest it_mode it_stack is_raw_mode]. rewrite El.
      destruct (is_raw_mode m'); lia. }
    assert (Hplain' : forall k', k' <= 10 -> NextCost (Iter rest ModeData stack opt) (Some (POk ev), Iter r m' stack opt) (k + k')).
    { intros k' Hk'. apply Hplain; lia. }
    assert (Hfail : forall e (it' : iter) k', k' <= 10 * length (content rest) + 4 * stack_cost stack + 50 ->
      NextCost (Iter rest ModeData stack opt) (Some (PErr e), it') (k + k')).
    { intros e it' k' Hk'. cbn [NextCost]. unfold pot. cbn [it_rest it_mode it_stack is_raw_mode]. rewrite El in *. lia. }
    destruct ev as [| | | | |tag a|tag|tag a|tag a];
      try (cbn [iter_next_close_c]; apply sp_ret; cbn [it_stack it_options]; apply Hplain'; lia).
    + (* opening *)
      cbn [tag_size] in Ht. destruct (match max_stack_depth opt with Some _ => _ | None => _ end).
      * eapply sp_bind; [apply sp_finalize|]. intros it' k' Hk'. apply sp_costs. cbn [it_rest] in Hk'. apply Hfail. lia.
      * eapply sp_bind; [eapply sp_exact|]. intros ? ? [-> ->]. cbn [iter_next_close_c it_stack it_options]. apply sp_ret.
        apply Hplain; [rewrite stack_cost_cons; cbn [loc_value]; lia|lia].
    + (* closing *)
      cbn [tag_size] in Ht. cbn [iter_next_close_c it_stack]. destruct stack as [|e st].
      * eapply sp_bind; [apply sp_finalize|]. intros it' k' Hk'. apply sp_costs. cbn [it_rest] in Hk'. apply Hfail. lia.
      * eapply sp_bind; [eapply sp_exact|]. intros b k' [-> ->]. destruct (negb _).
        -- eapply sp_bind; [apply sp_finalize|]. intros it' k'' Hk''. apply sp_costs. cbn [it_rest] in Hk''.
           apply Hfail. rewrite stack_cost_cons in *. lia.
        -- apply sp_ret. cbn [it_options it_stack]. rewrite stack_cost_cons in *.
           cbn [NextCost it_mode it_rest]. rewrite Hl0, Hs0. split; [|split; [exact Hshort'|split; [exists w; split; [exact E|lia]|auto]]].
           unfold pot, credit. cbn [it_rest it_mode it_stack is_raw_mode]. rewrite stack_cost_cons, El.
           destruct (is_raw_mode m'); lia.
  - cbn [parse_c]. eapply sp_bind; [apply sp_raw_data; now apply Hshort|]. intros [p| | |] k H; try contradiction.
    destruct H as (d & E & Hev & Hm & Hk). destruct p as [[loc ev] m' r]. cbn [p_rest p_event loc_value p_next_mode] in *.
    subst ev m'. apply sp_ret. cbn [NextCost it_rest it_mode is_raw_mode it_stack it_options].
    split; [|split; [discriminate|split; [exists d; split; [exact E|cbn [raw_size]; rewrite Nat.add_0_r; reflexivity]|split; [discriminate|discriminate]]]].
    unfold pot, credit. cbn [it_rest it_mode it_stack is_raw_mode raw_load].
    change (enc_str (enc_from_raw d)) with d. rewrite E, app_length. lia.
Qed.
