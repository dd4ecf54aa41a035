(** Bounds for the steps of the iterator and for the whole parser. *)
From Coq Require Import String List NArith Bool Lia PeanoNat.
From Verif Require Import Selector Machine Template Text Event Input Parse ParseCost SpecText SpecAttr SpecLocation SpecParse SpecCost TextProofs ParseProofs CostProofs CostProofs2 CostProofs3.
Import ListNotations.
Local Open Scope nat_scope.

Lemma sp_or_else {A} (a : costed (option A)) b (Q R : option A -> nat -> Prop) :
  Sp a Q -> (forall x k, Q (Some x) k -> R (Some x) k) ->
  (forall k, Q None k -> Sp (b tt) (fun o j => R o (k + j))) -> Sp (or_else_c a b) R.
Proof.
  intros H H1 H2. unfold or_else_c. eapply sp_bind; [exact H|]. intros [x|] k Hk; [|auto].
  apply sp_ret. rewrite Nat.add_0_r. auto.
Qed.

(** The length of an end tag at the beginning of the text *)
Definition closing (i : input) : nat :=
  match try_parse_tag_close i with
  | Some (POk p) => length (content i) - length (content (p_rest p))
  | _ => 0
  end.
Lemma sp_close_same i : Sp (try_parse_tag_close_c i) (fun o k => CloseCost i o k /\ o = try_parse_tag_close i).
Proof. apply sp_and; [apply sp_close|]. apply same_close. Qed.
Lemma closing_length i : closing i <= length (content i).
Proof. unfold closing. destruct (try_parse_tag_close i) as [[p| | |]|]; lia. Qed.
Lemma closing_directive i r : content i = 60%N :: 33%N :: r -> closing i = 0.
Proof.
  intros E. unfold closing. destruct (sp_close_same i) as [(w & r' & E1 & _ & _ & H) Eo].
  rewrite <- Eo. destruct (fst (try_parse_tag_close_c i)) as [[p| | |]|]; auto.
  destruct H as ((w1 & w2 & -> & Hb) & _). rewrite E in E1. cbn [app] in E1. injection E1 as E1.
  destruct w1 as [|c w1]; injection E1 as E1 E2; [discriminate|]. inversion_clear Hb. rewrite <- E1 in *. now apply ns33 in H.
Qed.

Definition DataCost (i : input) (o : presult parsed) (k : nat) : Prop :=
  match o with
  | POk p => exists w, content i = w ++ content (p_rest p) /\ w <> [] /\ k <= 200 * length w + 700 /\
      closing i <= length w /\ (forall t, p_next_mode p = ModeRawData t -> RawAhead (content i) /\ length t <= 8) /\
      tag_size (loc_value (p_event p)) <= length w /\ is_raw_data (loc_value (p_event p)) = false
  | _ => k <= 200 * length (content i) + 700
  end.
Lemma sp_data_mode i : content i <> [] -> Sp (parse_data_mode_c i) (DataCost i).
Proof.
  intros Hne. unfold parse_data_mode_c.
  eapply (sp_bind _ _ (fun o k => match o with Some r => DataCost i r k | None => k <= 700 end)).
  2:{ intros [r|] k H; apply sp_ret; [now rewrite Nat.add_0_r|]. cbn [DataCost]. lia. }
  eapply sp_or_else; [apply sp_comment| |].
  { intros [p| | |] k; cbn [DataCost]; try lia. intros (w & E & Hw & Hk & Hm & Ht & Hr & r & Er).
    exists w. rewrite (closing_directive _ _ Er), Hm, Ht.
    split; [exact E|]. split; [exact Hw|]. split; [lia|]. split; [lia|]. split; [discriminate|]. split; [lia|exact Hr]. }
  intros k1 Hk1. cbn beta iota in Hk1. eapply sp_or_else; [apply sp_doctype| |].
  { intros [p| | |] k; cbn [DataCost]; try lia. intros (w & E & Hw & Hk & Hm & Ht & Hr & r & Er).
    exists w. rewrite (closing_directive _ _ Er), Hm, Ht.
    split; [exact E|]. split; [exact Hw|]. split; [lia|]. split; [lia|]. split; [discriminate|]. split; [lia|exact Hr]. }
  intros k2 [Hk2 Hd2]. pose proof (upto_length (content i)) as Hu. eapply sp_or_else.
  { unfold try_parse_tag_c. eapply (sp_or_else _ _ _ (fun o k =>
      match o with Some r => DataCost i r (k1 + (k2 + k)) | None => (forall r, content i <> 60%N :: r) /\ k1 + (k2 + k) <= 200 end)); [apply sp_close_same| |].
    - intros x k [(w & r & E & _ & Hk & H) Eo]. assert (Hl : length w <= length (content i)) by (rewrite E; sizes).
      destruct x as [p| | |]; cbn [DataCost]; try lia.
      destruct H as ((w1 & w2 & Hw & Hb) & -> & Hm & x & Hx & Hs). exists w. split; [exact E|]. split; [now subst w|].
      assert (Hup : upto (content i) <= length w).
      { assert (E' : content i = (60%N :: w1 ++ 47%N :: w2) ++ 62%N :: content (p_rest p)) by (rewrite E, Hw; flat).
        rewrite E'. etransitivity; [apply upto_le|]. rewrite Hw. sizes. }
      split; [lia|]. split; [|split; [rewrite Hm; discriminate|]].
      + unfold closing. rewrite <- Eo, E. sizes.
      + rewrite Hx. cbn [tag_size is_raw_data]. auto.
    - intros k3 [(w & r & E & _ & Hk3 & H & Hd3) Eo]. eapply sp_weak; [apply sp_open|].
      assert (Hup : length w <= upto (content i)) by (rewrite E; now apply upto_app).
      intros [[p| | |]|] k; cbn [OpenCost DataCost]; try lia.
      + intros (v & Ev & Hv & Hk & Hm & Ht & Hr). exists (v ++ [62%N]). split; [exact Ev|]. split; [now destruct v|].
        assert (Hup2 : upto (content i) <= length v) by (rewrite Ev, <- app_assoc; apply upto_le).
        split; [sizes|]. split; [unfold closing; rewrite <- Eo; lia|]. split; [exact Hm|]. split; [sizes|exact Hr].
      + intros [Hn Hk]. split; [exact Hn|].
        destruct Hd2 as [Hd2|[r' Hd2]]; [|destruct (Hn _ Hd2)]. destruct Hd3 as [->|[r' Hd3]]; [cbn [length] in Hk3; lia|destruct (Hn _ Hd3)]. }
  - intros x k H. exact H.
  - cbn beta. intros k3 [Hn Hk3]. eapply sp_weak; [apply sp_data|]. intros [[p| | |]|] k; try tauto.
    + intros (w & E & Hw & Hk & Hm & Ht & Hr). cbn [DataCost]. exists w. split; [exact E|]. split; [exact Hw|]. split; [lia|].
      split; [|split; [rewrite Hm; discriminate|split; [lia|exact Hr]]].
      unfold closing. destruct (sp_close_same i) as [(w' & r' & E1 & _ & _ & H) Eo].
      rewrite <- Eo. destruct (fst (try_parse_tag_close_c i)) as [[p'| | |]|]; try lia.
      destruct H as ((w1 & w2 & -> & Hb) & _). cbn [app] in E1. destruct (Hn _ E1).
    + intros Hk. lia.
Qed.

(** ** Raw text *)


Definition uplt (s : str) : nat := match find_char (N.eqb 60) s with Some n => n | None => length s end.
Lemma uplt_lt s : uplt (60%N :: s) = 0.
Proof. reflexivity. Qed.
Lemma uplt_cons c s : c <> 60%N -> uplt (c :: s) = S (uplt s).
Proof.
  intros H. unfold uplt. cbn [find_char]. destruct (N.eqb_spec 60 c) as [E|]; [symmetry in E; contradiction|].
  now destruct (find_char (N.eqb 60) s).
Qed.
Lemma uplt_length s : uplt s <= length s.
Proof.
  unfold uplt. destruct (find_char (N.eqb 60) s) as [n|] eqn:E; [|lia].
  apply find_char_some in E as (w & c & r & -> & <- & _). rewrite app_length. lia.
Qed.
Lemma uplt_app w r : ~ In 60%N w -> length w <= uplt (w ++ r).
Proof.
  induction w as [|c w IH]; [cbn; lia|]. intros H. cbn [app]. rewrite uplt_cons.
  - assert (~ In 60%N w) as H' by (intros X; apply H; now right). specialize (IH H'). cbn [length]. lia.
  - intros E. apply H. now left.
Qed.
Lemma brackets_length s : brackets s <= length s.
Proof. unfold brackets. induction s as [|c s IH]; [reflexivity|]. cbn [count_occ length]. destruct (N.eq_dec c 60); lia. Qed.

Lemma sp_advanced' i w r : content i = w ++ r ->
  Sp (advanced_c i (length w)) (fun j k => (content j = r /\ k = 3 * length w + 2) /\ j = advanced i (length w)).
Proof. intros E. apply sp_and; [now apply sp_advanced|apply same_advanced]. Qed.
Lemma sp_consumed' i w r : content i = w ++ r ->
  Sp (consumed_c i (length w)) (fun j k => (fst j = w /\ content (snd j) = r /\ k = 3 * length w + 2) /\ j = consumed i (length w)).
Proof. intros E. apply sp_and; [now apply sp_consumed|apply same_consumed]. Qed.
Lemma sp_raw_end s j : length s <= 8 -> Sp (raw_data_end_c s j) (fun b k =>
  exists w r, content j = w ++ r /\ ~ In 60%N (tl w) /\ k <= 24 * length w + 100 /\ (b = true -> closing j = length w)).
Proof.
  intros Hs. unfold raw_data_end_c. eapply sp_bind; [apply sp_close_same|].
  intros o k [(w & r & E & Hn & Hk & H) Eo].
  destruct o as [[p| | |]|]; try (apply sp_ret; exists w, r; repeat split; auto; [lia|discriminate]).
  destruct H as (_ & -> & _ & x & Hx & Hl). rewrite Hx. eapply sp_bind; [eapply sp_exact|]. intros b k' [-> ->].
  apply sp_ret. exists w, (content (p_rest p)). split; [exact E|]. split; [exact Hn|]. split; [lia|].
  intros _. unfold closing. rewrite <- Eo, E, app_length. lia.
Qed.
Lemma sp_loop i s : length s <= 8 -> forall t pre, content i = pre ++ t ->
  Sp (take_until_end_loop_c i (raw_data_end_c s) (match_indices c_lt t (length pre))) (fun o k =>
  match o with
  | None => k <= brackets t * (3 * (length pre + length t) + 102) + 24 * (length t - uplt t)
  | Some (d, j) => exists t', d = pre ++ t' /\ content i = d ++ content j /\ t = t' ++ content j /\ uplt t <= length t' /\
      k <= brackets t' * (3 * length d + 102) + 24 * (length t' - uplt t) + 6 * length d + 110 + 24 * closing j
  end).
Proof.
  intros Hs t. induction t as [|c t IH]; intros pre E; cbn [match_indices take_until_end_loop_c].
  { apply sp_ret. lia. }
  assert (E' : content i = (pre ++ [c]) ++ t) by (rewrite E; flat).
  assert (El : length (pre ++ [c]) = S (length pre)) by (rewrite app_length; cbn; lia).
  pose proof (uplt_length t) as Hul.
  destruct (N.eqb_spec c c_lt) as [Ec|Ec].
  - change c_lt with 60%N in Ec. rewrite Ec in *. clear c Ec. cbn [take_until_end_loop_c].
    eapply sp_bind; [eapply sp_advanced'; exact E|]. intros j k [[Ej ->] Sj].
    eapply sp_bind; [apply sp_raw_end; exact Hs|]. intros b k1 (w & r & Ew & Hw & Hk1 & Hb).
    assert (Hwl : length w <= S (uplt t)).
    { destruct w as [|c w]; [cbn; lia|]. rewrite Ej in Ew. injection Ew as _ Ew. rewrite Ew. cbn [tl] in Hw.
      cbn [length]. apply le_n_S. exact (uplt_app w r Hw). }
    destruct b.
    + eapply sp_bind; [eapply sp_consumed'; exact E|].
      intros [d j'] k2 [(Ed & Ej' & ->) Sj']. cbn [fst snd] in Ed, Ej'. subst d. apply sp_ret.
      exists []. rewrite app_nil_r, Ej', uplt_lt. split; [reflexivity|]. split; [exact E|]. split; [reflexivity|]. split; [cbn; lia|].
      assert (j' = j) as -> by (unfold consumed in Sj'; injection Sj' as _ Sj'; now rewrite Sj', Sj).
      specialize (Hb eq_refl). cbn [length brackets count_occ]. lia.
    + rewrite <- El. eapply sp_weak; [apply IH; exact E'|]. intros [[d j']|] k2.
      * intros (t' & -> & H1 & H2 & H3 & H4). exists (60%N :: t'). rewrite uplt_lt.
        split; [flat|]. split; [exact H1|]. split; [cbn; f_equal; exact H2|]. split; [lia|].
        replace (brackets (60%N :: t')) with (S (brackets t')) by reflexivity.
        rewrite !app_length in *. cbn [length] in *.
        set (P := brackets t' * (3 * (length pre + 1 + length t') + 102)) in *.
        replace (S (brackets t') * _) with (P + (3 * (length pre + 1 + length t') + 102)) by (unfold P; lia). lia.
      * intros H. rewrite uplt_lt. replace (brackets (60%N :: t)) with (S (brackets t)) by reflexivity.
        rewrite El in H. cbn [length] in *.
        set (P := brackets t * (3 * (S (length pre) + length t) + 102)) in *.
        replace (S (brackets t) * _) with (P + (3 * (S (length pre) + length t) + 102)) by (unfold P; lia). lia.
  - change c_lt with 60%N in Ec. rewrite <- El. eapply sp_weak; [apply IH; exact E'|]. rewrite uplt_cons by exact Ec.
    assert (Et : forall u, brackets (c :: u) = brackets u) by (intros u; unfold brackets; now rewrite count_occ_cons_neq).
    intros [[d j']|] k2.
    + intros (t' & -> & H1 & H2 & H3 & H4). exists (c :: t'). split; [flat|]. split; [exact H1|].
      split; [cbn; f_equal; exact H2|]. split; [cbn [length]; lia|]. rewrite Et.
      replace (length (c :: t') - S (uplt t)) with (length t' - uplt t) by (cbn [length]; lia). exact H4.
    + intros H. rewrite Et, El in *. cbn [length] in *.
      replace (length pre + S (length t)) with (S (length pre) + length t) by lia. lia.
Qed.
Lemma sp_raw_data i s : length s <= 8 -> Sp (parse_raw_data_c i s) (fun o k =>
  match o with
  | POk p => exists d, content i = d ++ content (p_rest p) /\ loc_value (p_event p) = RawData (enc_from_raw d) /\
      p_next_mode p = ModeData /\
      k <= 3 * (brackets d * length d) + 200 * length d + 400 + 24 * closing (p_rest p)
  | _ => False
  end).
Proof.
  intros Hs. unfold parse_raw_data_c. eapply sp_bind.
  { unfold take_until_end_char_c. eapply sp_bind; [apply (sp_loop i s Hs (content i) []); reflexivity|].
    intros o k Ho. apply sp_costs. revert Ho. instantiate (1 := fun o k => match o with
      | None => k <= brackets (content i) * (3 * length (content i) + 102) + 25 * length (content i) + 1
      | Some (d, j) => content i = d ++ content j /\
          k <= brackets d * (3 * length d + 102) + 31 * length d + 111 + 24 * closing j end).
    destruct o as [[d j]|]; cbn beta iota.
    - intros (t' & -> & H1 & H2 & H3 & H4). cbn [app] in *. split; [exact H1|]. lia.
    - cbn [length]. intros H. replace (0 + length (content i)) with (length (content i)) in H by lia. lia. }
  intros o k Ho. cbn beta in Ho.
  eapply (sp_bind _ _ (fun y j => content i = fst y ++ content (snd y) /\
     k + j <= brackets (fst y) * (3 * length (fst y) + 102) + 40 * length (fst y) + 150 + 24 * closing (snd y))).
  { destruct o as [[d j]|].
    - destruct Ho as [E Hk]. apply sp_ret. cbn [fst snd]. split; [exact E|lia].
    - eapply sp_weak; [apply sp_take_all|]. intros [d j] k1. cbn [fst snd]. intros (-> & -> & ->).
      rewrite app_nil_r. split; [reflexivity|lia]. }
  intros [d j] k1. cbn [fst snd]. intros [E Hk]. eapply sp_bind; [eapply sp_exact|]. intros v k2 [-> ->]. apply sp_ret.
  exists d. cbn [p_rest p_event loc_value p_next_mode]. split; [exact E|]. split; [reflexivity|]. split; [reflexivity|].
  pose proof (brackets_length d). lia.
Qed.
