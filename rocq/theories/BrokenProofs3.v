(** Proofs for C71: selections that match nothing count the levels only. *)
From Coq Require Import String ZArith List Bool Lia.
From stdpp Require Import gmap.
From Verif Require Import Text Event Input Parse Selector Machine Template StreamBase.
From Verif Require Import SpecText SpecAttr SpecParse SpecTree SpecTransform SpecOps SpecLaws SpecSelectLaws SpecLocal SpecBroken.
From Verif Require Import TextProofs AttrProofs AttrProofs2 Trace TraceProofs StreamProofs StreamProofs2 StreamProofs3.
From Verif Require Import PipelineProofs TreeProofs MiscProofs.
From Verif Require Import ErrorProofs SelectionProofs BrokenProofs.
Local Open Scope nat_scope.

(** What scanning makes of events that do not match. *)
Fixpoint scan (level : nat) (evs : list event) : trace :=
  match evs with
  | [] => ([], None)
  | ev :: evs =>
      match adjust level ev with
      | inl level => let x := scan level evs in (ev :: fst x, snd x)
      | inr err => ([], Some err)
      end
  end.

Lemma strm_scan_select m b direct l elem Q calls : forall evs s h level,
  (forall ev, In ev evs -> matches m ev = false) ->
  h !! l = None -> Strm elem Q None s evs h ->
  Strm false Q (snd (scan level evs)) (SSelect l m b calls direct (Some (SelScanning level)))
    (fst (scan level evs)) (<[l := Cell s]> h).
Proof.
  induction evs as [|ev0 evs IH]; intros s h level Hm Hl Hs; (constructor; [discriminate|]); intros hf Hd;
    destruct (shared_sk _ _ _ _ _ _ _ Hl Hs hf Hd) as (s' & h' & r & E & Hd' & HA);
    destruct HA as [ev evs' E1 E3 X|E1 E3 X|err E1 E3]; try discriminate.
  - exists (SSelect l m b calls direct None), h', (inl None).
    split; [ne_by E|split; [exact Hd'|]]. now apply After_end.
  - injection E1 as <- <-. destruct X as (-> & s1 & h1 & -> & Hl1 & Hs1). cbn [scan].
    assert (include direct level && matches m ev0 = false) as Em.
    { rewrite Hm by now left. apply andb_false_r. }
    destruct (adjust level ev0) as [level'|err] eqn:Ha.
    + eexists _, _, (inl (Some ev0)). split; [eapply select_step; eauto|split; [exact Hd'|]].
      cbn [fst snd]. eapply After_event; [reflexivity|exact E3|].
      apply (IH s1 h1 level'); auto. intros ev Hin. apply Hm. now right.
    + exists (SSelect l m b calls direct None), (<[l := Cell s1]> h1), (inr err).
      split; [|split; [exact Hd'|now apply After_err]].
      destruct E as [k Hk]. apply ne_intro. exists k. intros j Hj. cbn [ne_body]. unfold on_ok.
      rewrite Hk by auto. cbn [obind]. rewrite Em, Ha. reflexivity.
Qed.
Lemma strm_scan_once m p direct l elem Q : forall evs s h level,
  (forall ev, In ev evs -> matches m ev = false) ->
  h !! l = None -> Strm elem Q None s evs h ->
  Strm false Q (snd (scan level evs)) (SSelectOnce l (Some (SelOScanning m p direct level)))
    (fst (scan level evs)) (<[l := Cell s]> h).
Proof.
  induction evs as [|ev0 evs IH]; intros s h level Hm Hl Hs; (constructor; [discriminate|]); intros hf Hd;
    destruct (shared_sk _ _ _ _ _ _ _ Hl Hs hf Hd) as (s' & h' & r & E & Hd' & HA);
    destruct HA as [ev evs' E1 E3 X|E1 E3 X|err E1 E3]; try discriminate.
  - exists (SSelectOnce l None), h', (inl None).
    split; [ne_by E|split; [exact Hd'|]]. now apply After_end.
  - injection E1 as <- <-. destruct X as (-> & s1 & h1 & -> & Hl1 & Hs1). cbn [scan].
    assert (include direct level && matches m ev0 = false) as Em.
    { rewrite Hm by now left. apply andb_false_r. }
    destruct (adjust level ev0) as [level'|err] eqn:Ha.
    + eexists _, _, (inl (Some ev0)). split; [|split; [exact Hd'|]].
      * destruct E as [k Hk]. apply ne_intro. exists k. intros j Hj. cbn [ne_body]. unfold on_ok.
        rewrite Hk by auto. cbn [obind]. rewrite Em, Ha. reflexivity.
      * cbn [fst snd]. eapply After_event; [reflexivity|exact E3|].
        apply (IH s1 h1 level'); auto. intros ev Hin. apply Hm. now right.
    + exists (SSelectOnce l None), (<[l := Cell s1]> h1), (inr err).
      split; [|split; [exact Hd'|now apply After_err]].
      destruct E as [k Hk]. apply ne_intro. exists k. intros j Hj. cbn [ne_body]. unfold on_ok.
      rewrite Hk by auto. cbn [obind]. rewrite Em, Ha. reflexivity.
Qed.

Lemma scan_app_one ev pre : openings (ev :: pre) = openings [ev] + openings pre /\
  closings (ev :: pre) = closings [ev] + closings pre.
Proof. destruct ev; split; reflexivity. Qed.

Definition NeverBelowFrom (level : nat) (evs : list event) : Prop :=
  forall pre c post, evs = pre ++ ClosingTag c :: post -> closings pre < level + openings pre.

Lemma never_below_tail level level' ev evs : NeverBelowFrom level (ev :: evs) ->
  adjust level ev = inl level' -> NeverBelowFrom level' evs /\ level' + closings [ev] = level + openings [ev].
Proof.
  intros H Ha.
  assert (level' + closings [ev] = level + openings [ev]) as He.
  { destruct ev; cbn in Ha |- *; try (injection Ha as <-; lia).
    destruct level; [discriminate|]. injection Ha as <-. lia. }
  split; [|exact He]. intros pre c post ->.
  pose proof (H (ev :: pre) c post eq_refl) as Hlt. pose proof (scan_app_one ev pre) as [E1 E2]. lia.
Qed.
Lemma never_below_adjust level ev evs : NeverBelowFrom level (ev :: evs) ->
  exists level', adjust level ev = inl level'.
Proof.
  intros H. destruct ev; cbn; eauto. specialize (H [] tag evs eq_refl). cbn in H.
  destruct level; [lia|eauto].
Qed.

Lemma scan_fine : forall evs level, NeverBelowFrom level evs -> scan level evs = (evs, None).
Proof.
  induction evs as [|ev evs IH]; intros level H; [reflexivity|]. cbn [scan].
  destruct (never_below_adjust _ _ _ H) as [level' Ha]. rewrite Ha.
  destruct (never_below_tail _ _ _ _ H Ha) as [H' _]. rewrite (IH _ H'). reflexivity.
Qed.
Lemma scan_below c post : forall pre level, NeverBelowFrom level pre -> closings pre = level + openings pre ->
  scan level (pre ++ ClosingTag c :: post) = (pre, Some (unexpected_close c)).
Proof.
  induction pre as [|ev pre IH]; intros level H He.
  - cbn in He. assert (level = 0) as -> by lia. reflexivity.
  - destruct (never_below_adjust _ _ _ H) as [level' Ha].
    destruct (never_below_tail _ _ _ _ H Ha) as [H' E]. pose proof (scan_app_one ev pre) as [E1 E2].
    cbn [app scan]. rewrite Ha, (IH level') by (auto; lia). reflexivity.
Qed.

Lemma unmatched_fine T q direct m evs : WellNested T -> Offers T q evs -> ~ In Noop evs ->
  (forall ev, In ev evs -> matches m ev = false) -> NeverBelow evs ->
  (forall b, Gives T (q ++ [OSelect direct (inl m) b]) (inl evs)) /\
  (forall p, Gives T (q ++ [OSelectOnce direct (inl m) p]) (inl evs)).
Proof.
  intros HT Ho Hn Hm Hb. pose proof (scan_fine evs 0 Hb) as Hs.
  change (inl evs : list event + stream_error) with (outcome (evs, None)). rewrite <- Hs.
  rewrite (surjective_pairing (scan 0 evs)). split.
  - intros b. apply (gives_select T q evs); auto. intros l s H.
    now apply (strm_scan_select m b direct l false).
  - intros p. apply (gives_select_once T q evs); auto. intros l s H.
    now apply (strm_scan_once m p direct l false).
Qed.
Lemma unmatched_below T q direct m pre c post : WellNested T -> Offers T q (pre ++ ClosingTag c :: post) ->
  ~ In Noop (pre ++ ClosingTag c :: post) ->
  (forall ev, In ev (pre ++ ClosingTag c :: post) -> matches m ev = false) ->
  NeverBelow pre -> closings pre = openings pre ->
  (forall b, Gives T (q ++ [OSelect direct (inl m) b]) (inr (unexpected_close c))) /\
  (forall p, Gives T (q ++ [OSelectOnce direct (inl m) p]) (inr (unexpected_close c))).
Proof.
  intros HT Ho Hn Hm Hb He. pose proof (scan_below c post pre 0 Hb He) as Hs.
  change (inr (unexpected_close c)) with (outcome (pre, Some (unexpected_close c))). rewrite <- Hs.
  rewrite (surjective_pairing (scan 0 _)). split.
  - intros b. apply (gives_select T q (pre ++ ClosingTag c :: post)); auto. intros l s H.
    now apply (strm_scan_select m b direct l false).
  - intros p. apply (gives_select_once T q (pre ++ ClosingTag c :: post)); auto. intros l s H.
    now apply (strm_scan_once m p direct l false).
Qed.

(** One of the two cases applies. *)
Lemma below_cases : forall evs, NeverBelow evs \/
  exists pre c post, evs = pre ++ ClosingTag c :: post /\ NeverBelow pre /\ closings pre = openings pre.
Proof.
  assert (forall evs level, NeverBelowFrom level evs \/
    exists pre c post, evs = pre ++ ClosingTag c :: post /\ NeverBelowFrom level pre /\
      closings pre = level + openings pre) as H.
  { induction evs as [|ev evs IH]; intros level.
    - left. intros pre c post E. destruct pre; discriminate.
    - destruct (adjust level ev) as [level'|err] eqn:Ha.
      + assert (level' + closings [ev] = level + openings [ev]) as He.
        { destruct ev; cbn in Ha |- *; try (injection Ha as <-; lia).
          destruct level; [discriminate|]. injection Ha as <-. lia. }
        assert (forall tl, NeverBelowFrom level' tl -> NeverBelowFrom level (ev :: tl)) as Hcons.
        { intros tl H pre c post E. destruct pre as [|ev' pre].
          - injection E as -> ->. destruct level; [discriminate|]. cbn. lia.
          - injection E as <- ->. specialize (H pre c post eq_refl).
            pose proof (scan_app_one ev pre) as [E1 E2]. lia. }
        destruct (IH level') as [H|(pre & c & post & -> & H & E)]; [left; auto|].
        right. exists (ev :: pre), c, post. split; [reflexivity|]. split; [auto|].
        pose proof (scan_app_one ev pre) as [E1 E2]. lia.
      + right. destruct ev; try discriminate. destruct level; [|discriminate].
        exists [], tag, evs. split; [reflexivity|]. split; [|reflexivity].
        intros pre c post E. destruct pre; discriminate. }
  intros evs. exact (H evs 0).
Qed.
