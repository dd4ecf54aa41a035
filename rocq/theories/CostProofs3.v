(** Bounds for tags, comments, texts and steps of the iterator. *)
From Coq Require Import String List NArith Bool Lia PeanoNat.
From Verif Require Import Selector Machine Template Text Event Input Parse ParseCost SpecText SpecAttr SpecLocation SpecParse TextProofs ParseProofs CostProofs CostProofs2.
Import ListNotations.
Local Open Scope nat_scope.

(** The text begins with the start of a tag with the name of a raw text element. *)
Definition RawAhead (s : str) : Prop :=
  exists w n r, s = 60%N :: w ++ n ++ r /\ Blank w /\ WordEnds r /\ RawName n.
Definition tag_size (e : event) : nat :=
  match e with OpeningTag x _ | ClosingTag x => length (id_str x) | _ => 0 end.
Definition is_raw_data (e : event) : bool := match e with RawData _ => true | _ => false end.

Lemma mode_for_tag_raw n b t : mode_for_tag n b = ModeRawData t -> RawName n /\ length t <= 8.
Proof.
  unfold mode_for_tag. destruct (negb b); [|easy].
  destruct (find (fun raw_tag => identifier_eq n raw_tag) RAW_TAGS) as [u|] eqn:E; [|easy]. intros [= <-].
  apply find_some in E as [Hu E]. apply identifier_eq_spec in E. split; [exists u; tauto|].
  cbn [RAW_TAGS map In] in Hu. decompose [or] Hu; subst; try easy; vm_compute; lia.
Qed.
Lemma names_cost_bound tag l : names_cost tag l <= S (list_sum (map (fun v => S (2 * length v)) l)) + 2 * length l * length tag.
Proof.
  unfold names_cost. induction l as [|v l IH]; [cbn; lia|]. cbn [map length].
  cbn [list_sum fold_right] in *. cbn [identifier_eq_c costs snd] in *. unfold list_sum in *. nia.
Qed.
Lemma void_cost tag : names_cost tag VOID_TAGS <= 200 + 32 * length tag.
Proof. etransitivity; [apply names_cost_bound|]. vm_compute (S (list_sum _)). change (length VOID_TAGS) with 16. lia. Qed.
Lemma raw_cost tag : names_cost tag RAW_TAGS <= 100 + 8 * length tag.
Proof. etransitivity; [apply names_cost_bound|]. vm_compute (S (list_sum _)). change (length RAW_TAGS) with 4. lia. Qed.

Definition OpenCost (i : input) (o : option (presult parsed)) (k : nat) : Prop :=
  match o with
  | None => (forall r, content i <> 60%N :: r) /\ k <= 10
  | Some (POk p) => exists w, content i = (w ++ [62%N]) ++ content (p_rest p) /\ w <> [] /\ k <= 150 * length w + 500 /\
      (forall t, p_next_mode p = ModeRawData t -> RawAhead (content i) /\ length t <= 8) /\
      tag_size (loc_value (p_event p)) <= length w /\ is_raw_data (loc_value (p_event p)) = false
  | Some _ => k <= 150 * length (content i) + 500
  end.
Lemma sp_open i : Sp (try_parse_tag_open_c i) (OpenCost i).
Proof.
  unfold try_parse_tag_open_c. eapply sp_bind; [apply sp_take_char|]. intros [j|] k.
  2:{ intros [E Hk]. apply sp_ret. split; [exact E|lia]. }
  intros [E Hk]. eapply sp_bind; [apply sp_skip|]. intros j1 k1 (w1 & E1 & B1 & G1 & Hk1).
  eapply sp_bind; [apply sp_take_identifier|]. intros o k2 (w2 & D2 & Hk2 & r & E2 & Ho).
  destruct o as [[[x j2]|]|e].
  2:{ apply sp_ret. cbn [OpenCost]. rewrite E, E1, E2. sizes. }
  2:{ apply sp_ret. cbn [OpenCost]. rewrite E, E1, E2. sizes. }
  destruct Ho as (Hx & -> & Hne & He).
  eapply sp_bind; [apply sp_skip|]. intros j3 k3 (w3 & E3 & B3 & G3 & Hk3).
  eapply sp_bind; [apply sp_attributes|]. intros [[l j4]| | |] k4; intros H4.
  2,3,4: apply sp_ret; cbn [OpenCost]; rewrite E, E1, E2, E3; rewrite Hx in H4; sizes.
  destruct H4 as (w4 & E4 & Hk4).
  eapply sp_bind; [apply sp_skip|]. intros j5 k5 (w5 & E5 & B5 & G5 & Hk5).
  eapply sp_bind; [apply sp_take_char|]. intros o k6 H6.
  eapply (sp_bind _ _ (fun q k => exists w6, content j5 = w6 ++ content (snd q) /\ k6 + k <= 4 * length w6 + 13)).
  { destruct o as [j6|].
    - destruct H6 as [E6 Hk6]. eapply sp_bind; [apply sp_skip|]. intros j7 k7 (w7 & E7 & B7 & G7 & Hk7).
      apply sp_ret. exists (47%N :: w7). cbn [snd]. rewrite E6, E7. split; [flat|sizes].
    - destruct H6 as [_ Hk6]. apply sp_ret. exists []. cbn. split; [reflexivity|lia]. }
  clear o H6. intros [b j7] k7 (w6 & E6 & Hk7). cbn [snd] in E6.
  eapply sp_bind; [apply sp_take_char|]. intros [j8|] k8.
  2:{ intros [_ Hk8]. apply sp_costs. cbn [OpenCost]. rewrite E, E1, E2, E3, E4, E5, E6, Hx. sizes. }
  intros [E8 Hk8]. eapply sp_bind; [eapply sp_exact|]. intros m k9 [-> ->].
  eapply sp_bind; [eapply sp_exact|]. intros void k10 [-> ->].
  pose proof (void_cost (id_str x)). pose proof (raw_cost (id_str x)).
  apply sp_ret. exists (60%N :: w1 ++ w2 ++ w3 ++ w4 ++ w5 ++ w6).
  split; [cbn [p_rest]; rewrite E, E1, E2, E3, E4, E5, E6, E8; flat|].
  split; [easy|]. split; [rewrite Hx in *; sizes|]. split.
  { intros t Ht. cbn [p_next_mode] in Ht. apply mode_for_tag_raw in Ht as [Ht Hl]. rewrite Hx in Ht. split; [|exact Hl].
    exists w1, w2, (content j2). rewrite E, E1, E2. auto. }
  cbn [p_event loc_value]. rewrite <- Hx at 1.
  destruct (is_void_tag (id_str x)); [cbn; split; [lia|reflexivity]|].
  destruct b; [cbn; split; [lia|reflexivity]|]. cbn [tag_size]. rewrite Hx. split; [sizes|reflexivity].
Qed.

Lemma sp_comment i : Sp (try_parse_comment_c i) (fun o k =>
  match o with
  | None => k <= 10
  | Some (POk p) => exists w, content i = w ++ content (p_rest p) /\ w <> [] /\ k <= 20 * length w + 60 /\
      p_next_mode p = ModeData /\ tag_size (loc_value (p_event p)) = 0 /\ is_raw_data (loc_value (p_event p)) = false /\
      exists r, content i = 60%N :: 33%N :: r
  | Some _ => k <= 20 * length (content i) + 60
  end).
Proof.
  unfold try_parse_comment_c. eapply sp_bind; [apply sp_take_str|]. intros [j|] k.
  2:{ intros [_ Hk]. apply sp_ret. change (length (lit "<!--")) with 4 in Hk. lia. }
  intros [E Hk]. change (length (lit "<!--")) with 4 in Hk.
  eapply sp_bind; [apply sp_take_until_str|]. change (length (lit "-->")) with 3. intros [[d j1]|] k1.
  2:{ intros Hk1. apply sp_ret. rewrite E. rewrite app_length. change (length (lit "<!--")) with 4. lia. }
  intros (E1 & _ & Hk1). eapply sp_bind; [apply sp_take_str|]. change (length (lit "-->")) with 3. intros [j2|] k2.
  2:{ intros [_ Hk2]. apply sp_ret. rewrite E, E1, !app_length. change (length (lit "<!--")) with 4. lia. }
  intros [E2 Hk2]. eapply sp_bind; [eapply sp_exact|]. intros v' k8 [-> ->]. apply sp_ret.
  exists (lit "<!--" ++ d ++ lit "-->"). rewrite E, E1, E2. split; [cbn [p_rest]; now rewrite <- !app_assoc|].
  split; [easy|]. split; [rewrite !app_length; change (length (lit "<!--")) with 4; change (length (lit "-->")) with 3; lia|].
  repeat split. eexists. reflexivity.
Qed.
Definition upto (s : str) : nat := match find_char (N.eqb 62) s with Some n => n | None => length s end.
Lemma upto_app w r : ~ In 62%N w -> length w <= upto (w ++ r).
Proof.
  unfold upto. induction w as [|c w IH]; [cbn; lia|]. intros H. cbn [app find_char].
  destruct (N.eqb_spec 62 c) as [E|]; [exfalso; apply H; left; symmetry; exact E|].
  assert (~ In 62%N w) as H' by (intros X; apply H; now right). specialize (IH H').
  destruct (find_char (N.eqb 62) (w ++ r)); cbn [length] in *; lia.
Qed.
Lemma upto_le w r : upto (w ++ 62%N :: r) <= length w.
Proof.
  unfold upto. induction w as [|c w IH]; [apply Nat.eq_le_incl; reflexivity|]. cbn [app find_char].
  destruct (N.eqb_spec 62 c); [lia|]. destruct (find_char (N.eqb 62) (w ++ 62%N :: r)) as [m|]; cbn [length] in *; [lia|].
  rewrite app_length in *. cbn [length] in *. lia.
Qed.
Lemma upto_length s : upto s <= length s.
Proof.
  unfold upto. destruct (find_char (N.eqb 62) s) as [n|] eqn:E; [|lia].
  apply find_char_some in E as (w & c & r & -> & <- & _). rewrite app_length. lia.
Qed.
Lemma sp_doctype i : Sp (try_parse_doctype_c i) (fun o k =>
  match o with
  | None => k <= 20 * upto (content i) + 60 /\ (k <= 10 \/ exists r, content i = 60%N :: r)
  | Some (POk p) => exists w, content i = w ++ content (p_rest p) /\ w <> [] /\ k <= 30 * length w + 60 /\
      p_next_mode p = ModeData /\ tag_size (loc_value (p_event p)) = 0 /\ is_raw_data (loc_value (p_event p)) = false /\
      exists r, content i = 60%N :: 33%N :: r
  | Some _ => k <= 30 * length (content i) + 60
  end).
Proof.
  unfold try_parse_doctype_c. eapply sp_bind; [apply sp_take_str|]. change (length (lit "<!")) with 2. intros [j|] k.
  2:{ intros [_ Hk]. apply sp_ret. split; [lia|left; lia]. }
  intros [E Hk]. eapply sp_bind; [apply sp_skip|]. intros j1 k1 (w1 & E1 & B1 & G1 & Hk1).
  eapply sp_bind; [apply sp_take_exact|]. change (length (lit "doctype")) with 7. intros o k2 (w2 & D2 & Hk2 & r & E2 & Ho).
  assert (Hup : length w1 + length w2 <= upto (content i)).
  { rewrite E, E1, E2. change (lit "<!") with [60%N; 33%N].
    pose proof (upto_app ([60%N; 33%N] ++ w1 ++ w2) r). rewrite <- !app_assoc in H. rewrite !app_length in H.
    cbn [length] in H. apply Nat.le_trans with (2 + (length w1 + length w2)); [lia|apply H]. noin. }
  destruct o as [[x j2]|].
  2:{ apply sp_ret. split; [lia|right]. rewrite E. eexists. reflexivity. }
  destruct Ho as [-> Hne].
  eapply sp_bind; [apply sp_skip|]. intros j3 k3 (w3 & E3 & B3 & G3 & Hk3).
  eapply sp_bind; [apply sp_take_until_char|]. intros [[d j4]|] k4.
  2:{ intros [_ Hk4]. apply sp_ret. rewrite E, E1, E2, E3. change (lit "<!") with [60%N; 33%N]. sizes. }
  intros (E4 & _ & _ & Hk4). eapply sp_bind; [eapply sp_exact|]. intros c k5 [-> ->].
  assert (Ht : length (trim d) <= length d).
  { unfold trim. rewrite rev_length. etransitivity; [apply trim_left_length|]. rewrite rev_length. apply trim_left_length. }
  eapply sp_bind; [apply sp_take_char|]. intros [j5|] k6.
  2:{ intros [_ Hk6]. apply sp_ret. rewrite E, E1, E2, E3, E4. change (lit "<!") with [60%N; 33%N]. sizes. }
  intros [E5 Hk6]. eapply sp_bind; [eapply sp_exact|]. intros b k7 [-> ->]. change (length (lit "html")) with 4.
  destruct (negb _).
  - apply sp_costs. rewrite E, E1, E2, E3, E4, E5. change (lit "<!") with [60%N; 33%N]. sizes.
  - eapply sp_bind; [eapply sp_exact|]. intros v k8 [-> ->]. apply sp_ret.
    exists (lit "<!" ++ w1 ++ w2 ++ w3 ++ d ++ [62%N]). rewrite E, E1, E2, E3, E4, E5. cbn [p_rest].
    change (lit "<!") with [60%N; 33%N].
    split; [flat|]. split; [easy|]. split; [sizes|]. repeat split. eexists. reflexivity.
Qed.
Lemma sp_data i : Sp (try_parse_data_c i) (fun o k =>
  match o with
  | None => k <= 10
  | Some (POk p) => exists w, content i = w ++ content (p_rest p) /\ w <> [] /\ k <= 10 * length w + 20 /\
      p_next_mode p = ModeData /\ tag_size (loc_value (p_event p)) = 0 /\ is_raw_data (loc_value (p_event p)) = false
  | Some _ => False
  end).
Proof.
  unfold try_parse_data_c. eapply sp_bind; [apply sp_take_until_char|]. intros o k Ho.
  eapply (sp_bind _ _ (fun y j => content i = fst y ++ content (snd y) /\ k + j <= 8 * length (fst y) + 3)).
  { destruct o as [[d j]|].
    - destruct Ho as (E & _ & _ & Hk). apply sp_ret. cbn [fst snd]. split; [exact E|lia].
    - destruct Ho as [_ Hk]. eapply sp_weak; [apply sp_take_all|]. intros [d j] k1. cbn [fst snd]. intros (-> & -> & ->).
      rewrite app_nil_r. split; [reflexivity|lia]. }
  intros [d j] k1. cbn [fst snd]. intros [E Hk]. destruct d as [|c d].
  - apply sp_ret. cbn [length] in Hk. lia.
  - eapply sp_bind; [eapply sp_exact|]. intros v k8 [-> ->]. apply sp_ret. exists (c :: d).
    cbn [p_rest p_next_mode p_event loc_value tag_size is_raw_data]. repeat split; auto; try easy. cbn [length] in *. lia.
Qed.
