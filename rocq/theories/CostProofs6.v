(** The parser as a whole: bounds from above and below. *)
From Coq Require Import String List NArith Bool Lia PeanoNat.
From Verif Require Import Selector Machine Template Text Event Input Parse ParseCost SpecText SpecAttr SpecLocation SpecParse SpecCost TextProofs ParseProofs CostProofs CostProofs2 CostProofs3 CostProofs4 CostProofs5.
Import ListNotations.
Local Open Scope nat_scope.

Definition NoRaw (s : str) : Prop := forall p t, s = p ++ t -> ~ RawAhead t.
Lemma no_raw s : NoRawElement s -> NoRaw s.
Proof. intros H p t E (w & n & r & -> & Hw & Hr & Hn). exact (H p w n r E Hw Hr Hn). Qed.
Lemma no_raw_app s w t : s = w ++ t -> NoRaw s -> NoRaw t.
Proof. intros -> H p u ->. apply (H (w ++ p) u). now rewrite app_assoc. Qed.

Definition CollectCost (it : iter) (acc : list event) (o : presult (list event)) (k : nat) : Prop :=
  exists new, k + credit it <= pot it + 51 + 3 * raw_load new /\ raw_size new <= length (content (it_rest it)) /\
    (NoRaw (content (it_rest it)) -> it_mode it = ModeData -> raw_load new = 0) /\
    match o with POk evs => evs = rev acc ++ new | _ => True end.
Lemma sp_collect n : forall it acc, short_mode (it_mode it) -> Sp (collect_c n it acc) (CollectCost it acc).
Proof.
  assert (Hend : forall it acc k, k + credit it <= pot it + 51 -> forall o,
    match o with POk evs => evs = rev acc | _ => True end -> CollectCost it acc o k).
  { intros it acc k Hk o Ho. exists []. cbn [raw_load raw_size]. split; [lia|]. split; [lia|]. split; [reflexivity|].
    destruct o; auto. now rewrite app_nil_r. }
  induction n as [|n IH]; intros it acc Hs; cbn [collect_c].
  { apply sp_ret. apply Hend; [|exact I]. pose proof (credit_le it). unfold pot. lia. }
  eapply sp_bind; [apply sp_next; exact Hs|]. intros [[[ev| | |]|] it'] k H; cbn [NextCost] in H.
  - destruct H as (Hk & Hs' & (w & E & Hw) & Hd & Hm). eapply sp_bind; [eapply sp_exact|]. intros u k1 [-> ->].
    eapply sp_weak; [apply IH; exact Hs'|]. intros o k2 (new & H1 & H2 & H3 & H4).
    exists (ev :: new). rewrite raw_load_cons, raw_size_cons. split; [lia|]. split; [rewrite E, app_length; lia|].
    split.
    + intros Hn Hmode. destruct (not_raw ev (Hd Hmode)) as [-> _]. rewrite H3; [reflexivity|exact (no_raw_app _ _ _ E Hn)|].
      destruct (it_mode it') as [|t]; [reflexivity|]. destruct (Hn [] _ eq_refl (Hm eq_refl)).
    + destruct o; auto. rewrite H4. cbn [rev]. now rewrite <- app_assoc.
  - apply sp_costs. apply Hend; [lia|exact I].
  - apply sp_ret. apply Hend; [lia|exact I].
  - apply sp_ret. apply Hend; [lia|exact I].
  - apply sp_costs. apply Hend; [lia|reflexivity].
Qed.

Lemma cost_from_str s o : exists load,
  snd (from_str_c s o) <= 1500 * length s + 51 + 3 * load /\ load <= length s * length s /\
  (NoRawElement s -> load = 0) /\ (forall evs, from_str s o = TOk evs -> load = raw_load evs).
Proof.
  assert (H : forall f, exists load, snd (x <- collect_c f (iter_new s o) [];
      ret match x with POk events => TOk events | PErr e => TErr (ParseError e) | PPanic => TPanic | PFuel => TFuel end)
      <= 1500 * length s + 51 + 3 * load /\ load <= length s * length s /\ (NoRawElement s -> load = 0) /\
      (forall evs, fst (x <- collect_c f (iter_new s o) [];
      ret match x with POk events => TOk events | PErr e => TErr (ParseError e) | PPanic => TPanic | PFuel => TFuel end) = TOk evs -> load = raw_load evs)).
  { intros f. assert (Hs : short_mode (it_mode (iter_new s o))) by discriminate.
    destruct (sp_collect f (iter_new s o) [] Hs) as (new & H1 & H2 & H3 & H4).
    unfold pot in H1. cbn in H1, H2, H3. exists (raw_load new). rewrite snd_bind, fst_bind. cbn [ret snd fst].
    split; [lia|]. split.
    - etransitivity; [apply raw_load_square|]. now apply Nat.mul_le_mono.
    - split; [intros Hn; apply H3; [now apply no_raw|reflexivity]|].
      destruct (fst (collect_c f (iter_new s o) [])); try discriminate. intros evs [= <-]. now rewrite H4. }
  rewrite <- from_str_same. unfold from_str_c, parse_events_c. cbv zeta.
  destruct (max_input_len o) as [l|]; [destruct (Nat.ltb l (str_len s))|]; [|apply H..].
  exists 0. cbn [costs fst snd]. split; [lia|]. split; [lia|]. split; [reflexivity|discriminate].
Qed.
Lemma cost_quadratic s o : snd (from_str_c s o) <= 1503 * (length s + 1) * (length s + 1).
Proof. destruct (cost_from_str s o) as (l & H1 & H2 & _). nia. Qed.
Lemma cost_accepted s o evs : from_str s o = TOk evs ->
  snd (from_str_c s o) <= 1500 * (length s + 1) + 3 * raw_load evs.
Proof. intros E. destruct (cost_from_str s o) as (l & H1 & _ & _ & H2). rewrite (H2 _ E) in H1. lia. Qed.
Lemma cost_linear s o : NoRawElement s -> snd (from_str_c s o) <= 1500 * (length s + 1).
Proof. intros E. destruct (cost_from_str s o) as (l & H1 & _ & H2 & _). rewrite (H2 E) in H1. lia. Qed.

(** *** From below *)

Lemma low_loop i check : forall t pre, content i = pre ++ t ->
  Sp (take_until_end_loop_c i check (match_indices c_lt t (length pre))) (fun o k =>
  match o with
  | None => 3 * bracket_positions (length pre) t <= k
  | Some (d, j) => exists t', d = pre ++ t' /\ 3 * bracket_positions (length pre) t' <= k
  end).
Proof.
  induction t as [|c t IH]; intros pre E; cbn [match_indices take_until_end_loop_c].
  { apply sp_ret. cbn. lia. }
  assert (E' : content i = (pre ++ [c]) ++ t) by (rewrite E; flat).
  assert (El : length (pre ++ [c]) = S (length pre)) by (rewrite app_length; cbn; lia).
  rewrite <- El. change c_lt with 60%N. destruct (N.eqb_spec c 60) as [Ec|Ec].
  - cbn [take_until_end_loop_c]. eapply sp_bind; [eapply sp_advanced'; exact E|]. intros j k [[Ej ->] Sj].
    eapply (sp_bind _ _ (fun _ _ => True)); [exact I|]. intros b k1 _. destruct b.
    + eapply sp_bind; [eapply sp_consumed'; exact E|]. intros [d j'] k2 [(Ed & Ej' & ->) Sj'].
      cbn [fst snd] in Ed. subst d. apply sp_ret. exists []. rewrite app_nil_r. split; [reflexivity|]. cbn. lia.
    + eapply sp_weak; [apply IH; exact E'|]. intros [[d j']|] k2.
      * intros (t' & -> & H). exists (c :: t'). split; [flat|]. rewrite El in H. cbn [bracket_positions].
        rewrite (proj2 (N.eqb_eq c 60) Ec). lia.
      * intros H. rewrite El in H. cbn [bracket_positions]. rewrite (proj2 (N.eqb_eq c 60) Ec). lia.
  - eapply sp_weak; [apply IH; exact E'|]. intros [[d j']|] k2.
    + intros (t' & -> & H). exists (c :: t'). split; [flat|]. rewrite El in H. cbn [bracket_positions].
      rewrite (proj2 (N.eqb_neq c 60) Ec). lia.
    + intros H. rewrite El in H. cbn [bracket_positions]. rewrite (proj2 (N.eqb_neq c 60) Ec). lia.
Qed.
Lemma raw_positions_cons e l : raw_positions (e :: l) = raw_positions [e] + raw_positions l.
Proof. destruct e; cbn [raw_positions]; lia. Qed.
Lemma raw_positions_app a b : raw_positions (a ++ b) = raw_positions a + raw_positions b.
Proof. induction a as [|e a IH]; [reflexivity|]. cbn [app]. rewrite raw_positions_cons, IH, (raw_positions_cons e a). lia. Qed.
Lemma raw_positions_rev a : raw_positions (rev a) = raw_positions a.
Proof.
  induction a as [|e a IH]; [reflexivity|]. cbn [rev]. rewrite raw_positions_app, IH, (raw_positions_cons e a). lia.
Qed.
Lemma low_raw_data i s : Sp (parse_raw_data_c i s) (fun o k =>
  match o with POk p => 3 * raw_positions [loc_value (p_event p)] <= k | _ => True end).
Proof.
  unfold parse_raw_data_c. eapply (sp_bind _ _ (fun o k => match o with
    | None => 3 * bracket_positions 0 (content i) <= k | Some (d, j) => 3 * bracket_positions 0 d <= k end)).
  { unfold take_until_end_char_c. eapply sp_bind; [apply (low_loop i _ (content i) []); reflexivity|].
    intros [[d j]|] k H; apply sp_costs.
    - destruct H as (t' & -> & H). cbn [app]. cbn [length] in H. lia.
    - cbn [length] in H. lia. }
  intros o k Ho. eapply (sp_bind _ _ (fun y j => 3 * bracket_positions 0 (fst y) <= k + j)).
  { destruct o as [[d j]|]; [apply sp_ret; cbn [fst]; lia|]. eapply sp_weak; [apply sp_take_all|].
    intros [d j] k1. cbn [fst snd]. intros (-> & _). lia. }
  intros [d j] k1. cbn [fst snd]. intros H. eapply sp_bind; [eapply sp_exact|]. intros v k2 [-> ->]. apply sp_ret.
  cbn [p_event loc_value raw_positions]. change (enc_str (enc_from_raw d)) with d. lia.
Qed.
Lemma not_raw_positions e : is_raw_data e = false -> raw_positions [e] = 0.
Proof. destruct e; easy. Qed.
Lemma low_next it : Sp (iter_next_c it) (fun x k =>
  match fst x with Some (POk ev) => 3 * raw_positions [ev] <= k | _ => True end).
Proof.
  unfold iter_next_c. destruct (input_is_empty (it_rest it)) eqn:Ee.
  { destruct (it_stack it); apply sp_costs; exact I. }
  apply is_empty_content in Ee.
  eapply (sp_bind _ _ (fun o k => match o with POk p => 3 * raw_positions [loc_value (p_event p)] <= k | _ => True end)).
  { destruct (it_mode it); cbn [parse_c]; [|apply low_raw_data].
    eapply sp_weak; [apply sp_data_mode; exact Ee|]. intros [p| | |] k; cbn [DataCost]; auto.
    intros (w & _ & _ & _ & _ & _ & _ & Hr). rewrite (not_raw_positions _ Hr). lia. }
  assert (Hclose : forall it loc ev m r k, 3 * raw_positions [ev] <= k -> Sp (iter_next_close_c it loc ev m r) (fun b j =>
    match fst b with Some (POk ev0) => 3 * raw_positions [ev0] <= k + j | _ => True end)).
  { intros it0 loc ev m r k H. unfold iter_next_close_c. destruct ev; try (apply sp_ret; cbn [fst]; lia).
    destruct (it_stack it0).
    - eapply sp_bind; [apply sp_finalize|]. intros ? ? _. now apply sp_costs.
    - eapply sp_bind; [eapply sp_exact|]. intros b k' [-> ->]. destruct (negb _); [|apply sp_ret; cbn [fst]; lia].
      eapply sp_bind; [apply sp_finalize|]. intros ? ? _. now apply sp_costs. }
  intros [[[loc ev] m r]| | |] k H; cbn [p_event loc_value] in H; try (now apply sp_ret).
  2:{ eapply sp_bind; [apply sp_finalize|]. intros ? ? _. now apply sp_ret. }
  destruct ev; try (now apply Hclose).
  destruct (match max_stack_depth _ with Some _ => _ | None => _ end).
  - eapply sp_bind; [apply sp_finalize|]. intros ? ? _. now apply sp_costs.
  - eapply sp_bind; [eapply sp_exact|]. intros ? ? [-> ->]. eapply sp_weak; [apply (Hclose _ _ _ _ _ k); exact H|].
    intros [[[e| | |]|] ?] j; cbn [fst]; auto. lia.
Qed.
Lemma low_collect n : forall it acc, Sp (collect_c n it acc) (fun o k =>
  match o with POk evs => 3 * raw_positions evs <= k + 3 * raw_positions acc | _ => True end).
Proof.
  induction n as [|n IH]; intros it acc; cbn [collect_c]; [now apply sp_ret|].
  eapply sp_bind; [apply low_next|]. intros [[[ev| | |]|] it'] k H; cbn [fst] in H; try (now apply sp_ret); try (now apply sp_costs).
  - eapply sp_bind; [eapply sp_exact|]. intros u k1 [-> ->]. eapply sp_weak; [apply IH|].
    intros [evs| | |] k2; auto. rewrite (raw_positions_cons ev acc). lia.
  - apply sp_costs. rewrite raw_positions_rev. lia.
Qed.
Lemma cost_below s o evs : from_str s o = TOk evs -> 3 * raw_positions evs <= snd (from_str_c s o).
Proof.
  rewrite <- from_str_same. unfold from_str_c, parse_events_c. cbv zeta.
  assert (H : forall f, fst (x <- collect_c f (iter_new s o) [];
      ret match x with POk events => TOk events | PErr e => TErr (ParseError e) | PPanic => TPanic | PFuel => TFuel end) = TOk evs ->
      3 * raw_positions evs <= snd (x <- collect_c f (iter_new s o) [];
      ret match x with POk events => TOk events | PErr e => TErr (ParseError e) | PPanic => TPanic | PFuel => TFuel end)).
  { intros f. rewrite snd_bind, fst_bind. cbn [ret fst snd]. pose proof (low_collect f (iter_new s o) []) as H.
    unfold Sp in H. destruct (fst (collect_c f (iter_new s o) [])); try discriminate. intros [= <-]. cbn in H. lia. }
  destruct (max_input_len o) as [l|]; [destruct (Nat.ltb l (str_len s))|]; [discriminate|apply H..].
Qed.
