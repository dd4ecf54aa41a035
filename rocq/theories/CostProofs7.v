(** Scripts that take quadratic time *)
From Coq Require Import String List NArith Bool Lia PeanoNat.
From Verif Require Import Selector Machine Template Text Event Input Parse ParseCost SpecText SpecAttr SpecLocation SpecParse SpecCost TextProofs ParseProofs ParseProofs9 CostProofs CostProofs2 CostProofs6.
Import ListNotations.
Local Open Scope N_scope.

Lemma script_name : ValidName (lit "script").
Proof. apply validate_iff. exists (lit "script"). vm_compute. reflexivity. Qed.
Lemma script_word r : WordEnds r -> Name (lit "script") r.
Proof.
  intros H. split; [|exact script_name]. split; [discriminate|]. split; [|exact H].
  intros c Hc Hd. cbn in Hc, Hd. repeat destruct Hc as [<-|Hc]; try destruct Hc; intuition discriminate.
Qed.
Lemma gt_word : WordEnds [62].
Proof. right. exists 62, []. split; [reflexivity|]. cbn. tauto. Qed.
Lemma not_space c : In c [62; 60; 47] -> ~ Space c.
Proof.
  intros H. unfold Space. cbn [In] in *. intros [A|[A|A]]; lia.
Qed.
Lemma gap_gt : Gap [] [62].
Proof. split; [constructor|]. intros (c & r & [= <- <-] & H). revert H. apply not_space. cbn. tauto. Qed.
Definition script : ident := name (lit "script").
Lemma spells_script : Spells (lit "<script>") (OpeningTag script []).
Proof.
  apply Sp_open.
  - exists [62]. split; [|reflexivity]. split; [|split].
    + intros (r & E). discriminate.
    + intros (w & kw & r & E & _). discriminate.
    + exists [], [], [62]. split; [reflexivity|]. split; [constructor|]. split; [apply script_word, gt_word|].
      split; [apply gap_gt|constructor].
  - intros (v & Hv & Hs). cbn in Hv. assert (eq_ignore_ascii_case (lit "script") v = true) as E by now apply eq_ignore_spec.
    repeat destruct Hv as [<-|Hv]; try destruct Hv; discriminate E.
Qed.
Lemma end_script : EndTag (lit "</script>") (lit "script").
Proof.
  exists [], [], []. split; [reflexivity|]. split; [constructor|]. split; [constructor|]. split; [constructor|].
  apply script_word, gt_word.
Qed.
Lemma script_document n : Document None (script_of n) [OpeningTag script []; RawData (raw (repeat 60 n)); ClosingTag script].
Proof.
  unfold Document. set (s := script_of n).
  assert (R1 : Reads None s (lit "<script>") (repeat 60 n ++ lit "</script>") (Some (lit "script")) [([], lit "script")] [OpeningTag script []]).
  { apply (R_step None s [] (lit "<script>") (repeat 60 n ++ lit "</script>") None (Some (lit "script")) [] _ []); [apply R_start|discriminate| |].
    - apply I_markup; [apply spells_script| |exact I]. cbn [After]. split; [cbn; tauto|apply same_name_refl].
    - cbn [Nest]. split; [discriminate|reflexivity]. }
  assert (R2 : Reads None s (lit "<script>" ++ repeat 60 n) (lit "</script>") None [([], lit "script")] [OpeningTag script []; RawData (raw (repeat 60 n))]).
  { apply (R_step None s _ (repeat 60 n) (lit "</script>") (Some (lit "script")) None [([], lit "script")] _ [OpeningTag script []]); [exact R1| | |reflexivity].
    - destruct n; discriminate.
    - apply I_raw.
      + right. exists (lit "</script>"), [], (lit "script"). split; [reflexivity|]. split; [apply end_script|apply same_name_refl].
      + intros p q E Hq (sl & r & x & E2 & (w & w' & w'' & -> & Hw & _) & _).
        assert (Hall : Forall (eq 60) (p ++ q)) by (rewrite <- E; apply Forall_forall; intros c Hc; symmetry; now apply repeat_spec in Hc).
        apply Forall_app in Hall as [_ Hall]. destruct q as [|c q]; [easy|]. inversion Hall as [|? ? _ Hall']; subst.
        cbn [app] in E2. injection E2 as _ E2.
        assert (exists r', q ++ lit "</script>" = 60 :: r') as [r' E3].
        { destruct q as [|d q]; [now eexists|]. inversion Hall'; subst. now eexists. }
        rewrite E3 in E2. destruct w as [|d w]; [discriminate|]. cbn [app] in E2. injection E2 as <- _.
        inversion Hw as [|? ? Hd _]; subst. revert Hd. apply not_space. cbn. tauto. }
  replace s with ((lit "<script>" ++ repeat 60 n) ++ lit "</script>") at 2 by (unfold s, script_of; now rewrite <- app_assoc).
  apply (R_step None s _ (lit "</script>") [] None None [([], lit "script")] [] [OpeningTag script []; RawData (raw (repeat 60 n))]).
  - rewrite app_nil_r. exact R2.
  - discriminate.
  - apply I_markup; [apply Sp_end, end_script|reflexivity|exact I].
  - cbn [Nest]. exists [], (lit "script"). split; [reflexivity|apply same_name_refl].
Qed.
Lemma repeat_positions n : forall k, (2 * bracket_positions k (repeat 60%N n) + n = n * n + 2 * k * n)%nat.
Proof.
  induction n as [|n IH]; intros k; [cbn; lia|]. cbn [repeat bracket_positions]. rewrite (proj2 (N.eqb_eq 60 60) eq_refl).
  specialize (IH (S k)). nia.
Qed.
Lemma script_accepted n : exists evs, from_str (script_of n) default_options = TOk evs /\
  (2 * raw_positions evs + n = n * n)%nat.
Proof.
  eexists. split; [apply from_str_document; [reflexivity|apply script_document]|].
  cbn [raw_positions]. change (enc_str (raw (repeat 60 n))) with (repeat 60 n). pose proof (repeat_positions n 0). lia.
Qed.
Lemma cost_not_linear : forall K, exists s evs, from_str s default_options = TOk evs /\
  (K * (length s + 1) < snd (from_str_c s default_options))%nat.
Proof.
  intros K. destruct (script_accepted (20 * K + 20)) as (evs & E & H). exists (script_of (20 * K + 20)), evs.
  split; [exact E|]. pose proof (cost_below _ _ _ E) as Hb.
  assert (Hl : length (script_of (20 * K + 20)) = (20 * K + 37)%nat).
  { unfold script_of. rewrite !app_length, repeat_length. change (length (lit "<script>")) with 8%nat.
    change (length (lit "</script>")) with 9%nat. lia. }
  rewrite Hl. nia.
Qed.
Lemma no_raw_example : NoRawElement (lit "<p>a</p>").
Proof.
  intros p w n r E _ _ (t & Ht & Hn).
  assert (H : forall c, In c n -> In c [60; 112; 62; 97; 47]).
  { intros c Hc. assert (In c (lit "<p>a</p>")) as Hi.
    { rewrite E. apply in_or_app. right. right. apply in_or_app. right. apply in_or_app. now left. }
    vm_compute in Hi |- *. intuition. }
  cbn in Ht. repeat destruct Ht as [<-|Ht]; try destruct Ht;
    inversion Hn as [|c x l l' Hc _]; subst; specialize (H c (or_introl eq_refl)); cbn [In] in H;
    unfold SameLetter in Hc; lia.
Qed.
