(** [from_file] does what [Loads] says. *)
From Coq Require Import List NArith Arith Bool Lia.
Import ListNotations.
From Verif Require Import Text Input Parse Selector Template SpecLocation SpecFile
  LocationProofs FileProofs MiscProofs.
Local Open Scope nat_scope.

Lemma within_over o s : Within o s <-> over (max_input_len o) (str_len s) = false.
Proof.
  unfold Within, over. rewrite str_len_utf8. destruct (max_input_len o) as [l|].
  - rewrite Nat.ltb_ge. split; [auto|]. intros H l' [= <-]. exact H.
  - split; [reflexivity|]. intros _ l' H. discriminate.
Qed.
Lemma no_char_first bs : NoChar bs <-> utf8_first bs = None.
Proof.
  split.
  - intros H. destruct (utf8_first bs) as [[c n]|] eqn:E; auto.
    apply utf8_first_some in E. destruct E as (Hc & _ & rest & ->). now destruct (H c rest Hc).
  - intros H c rest Hc ->. rewrite utf8_first_char in H by auto. discriminate.
Qed.
Lemma within_prefix o a b : Within o (a ++ b) -> Within o a.
Proof. intros H l E. specialize (H l E). rewrite utf8_app, app_length in H. lia. Qed.
Lemma utf8_nonempty p : p <> [] -> utf8 p <> [].
Proof.
  destruct p as [|c p]; [congruence|]. intros _. cbn. pose proof (utf8_char_pos c).
  destruct (utf8_char c); [simpl in *; lia|discriminate].
Qed.
Lemma prefix_value p bad : ScalarStr p -> NoChar bad ->
  from_utf8_prefix (utf8 p ++ bad) = (p, length (utf8 p), bad).
Proof.
  intros Hp Hb. unfold from_utf8_prefix.
  match goal with |- ?t = _ => destruct t as [[s' n] r] eqn:E end.
  apply utf8_prefix_spec in E; auto. destruct E as (E & -> & Hs' & Hr).
  apply no_char_first in Hb. destruct (utf8_prefix_unique p bad s' r) as [<- <-]; auto.
Qed.
Lemma no_char_nil : NoChar [].
Proof. now apply no_char_first. Qed.

(** one chunk *)
Lemma loop_chunk fuel path o p bad reads acc : ScalarStr p -> p <> [] -> NoChar bad ->
  Within o (acc ++ p) ->
  read_loop (S fuel) path (max_input_len o) [] (inl (utf8 p ++ bad) :: reads) acc
  = read_loop fuel path (max_input_len o) bad reads (acc ++ p).
Proof.
  intros Hp Hne Hb Hw. rewrite read_loop_step, prefix_value by auto.
  assert (utf8 p ++ bad <> []) as Hd.
  { pose proof (utf8_nonempty p Hne). destruct (utf8 p); [congruence|discriminate]. }
  pose proof (utf8_nonempty p Hne) as Hu.
  destruct (utf8 p ++ bad); [congruence|]. destruct (utf8 p); [congruence|]. cbn [length].
  apply within_over in Hw. unfold over in Hw.
  destruct (max_input_len o); [now rewrite Hw|reflexivity].
Qed.
Lemma loop_whole fuel path o pieces reads acc : Whole pieces -> Within o (acc ++ concat pieces) ->
  read_loop (length pieces + fuel) path (max_input_len o) [] (whole_reads pieces ++ reads) acc
  = read_loop fuel path (max_input_len o) [] reads (acc ++ concat pieces).
Proof.
  revert acc. induction pieces as [|p pieces IH]; intros acc HW Hi.
  - cbn [concat]. now rewrite app_nil_r.
  - destruct (HW p (or_introl eq_refl)) as [Hne Hp]. cbn [length Nat.add whole_reads map app].
    rewrite <- (app_nil_r (utf8 p)). cbn [concat] in *. rewrite app_assoc in *.
    rewrite loop_chunk; auto using no_char_nil.
    + apply IH; auto. intros q Hq. apply HW. now right.
    + eapply within_prefix. eauto.
Qed.

Lemma size_app a b : schedule_size (a ++ b) + 1 = schedule_size a + schedule_size b.
Proof.
  unfold schedule_size. induction a as [|[bs|c] a IH]; cbn [app fold_right]; lia.
Qed.
Lemma size_whole pieces : 2 * length pieces + 1 <= schedule_size (whole_reads pieces).
Proof.
  unfold schedule_size, whole_reads, byte. induction pieces as [|p pieces IH]; cbn [map fold_right length]; [lia|].
  lia.
Qed.

(** enough fuel after the whole pieces *)
Lemma loop_file path o pieces reads : Whole pieces -> Within o (concat pieces) ->
  exists fuel, schedule_size reads <= fuel /\
  read_loop (schedule_size (whole_reads pieces ++ reads)) path (max_input_len o) []
    (whole_reads pieces ++ reads) []
  = read_loop fuel path (max_input_len o) [] reads (concat pieces).
Proof.
  intros HW Hi. pose proof (size_app (whole_reads pieces) reads). pose proof (size_whole pieces).
  unfold byte in *.
  exists (schedule_size (whole_reads pieces ++ reads) - length pieces). split; [lia|].
  rewrite <- (loop_whole _ path o pieces reads []) by auto. f_equal. lia.
Qed.

Lemma loads_sound path o reads r : Loads path o reads r -> from_file path (inl reads) o = r.
Proof.
  intros H. unfold from_file. destruct H as [pieces HW Hi|pieces code rest HW Hi
    |pieces p bad rest HW Hp Hi Hne Hb|pieces p bad rest l HW Hp Hne Hb Hi Hl Ho].
  - destruct (loop_file path o pieces [] HW Hi) as (fuel & Hf & E). rewrite app_nil_r in E. rewrite E.
    cbn in Hf. destruct fuel as [|fuel]; [lia|]. reflexivity.
  - destruct (loop_file path o pieces (inr code :: rest) HW Hi) as (fuel & Hf & ->).
    cbn in Hf. destruct fuel as [|fuel]; [lia|]. reflexivity.
  - pose proof (within_prefix _ _ _ Hi) as Hi'.
    destruct (loop_file path o pieces (inl (utf8 p ++ bad) :: rest) HW Hi') as (fuel & Hf & ->).
    destruct bad as [|b bad]; [congruence|]. pose proof Hb as Hb'. apply no_char_first in Hb'.
    cbn [schedule_size fold_right] in Hf. rewrite app_length in Hf. cbn [length] in Hf.
    destruct fuel as [|fuel]; [lia|]. destruct fuel as [|fuel]; [lia|].
    assert (from_utf8_prefix (b :: bad) = ([], 0, b :: bad)) as Hz
      by (apply (prefix_value [] (b :: bad)); [intros ? []|exact Hb]).
    assert (HD : forall fuel reads acc,
      read_loop (S fuel) path (max_input_len o) (b :: bad) reads acc = Some (inr (FileDecode path 0))).
    { intros. rewrite read_loop_step. now rewrite Hz. }
    destruct p as [|c p].
    + rewrite read_loop_step. cbn [utf8 flat_map app].
      now rewrite Hz.
    + rewrite loop_chunk by (auto; discriminate). now rewrite HD.
  - destruct (loop_file path o pieces (inl (utf8 p ++ bad) :: rest) HW Hi) as (fuel & Hf & ->).
    cbn in Hf. destruct fuel as [|fuel]; [lia|]. rewrite read_loop_step, prefix_value by auto.
    pose proof (utf8_nonempty p Hne) as Hu. destruct (utf8 p ++ bad) eqn:E.
    { apply app_eq_nil in E. tauto. }
    destruct (utf8 p) eqn:Eu; [congruence|]. cbn [length]. rewrite Hl.
    rewrite str_len_utf8. now rewrite (proj2 (Nat.ltb_lt _ _) Ho).
Qed.

Lemma within_dec o s : Within o s \/ exists l, max_input_len o = Some l /\ l < length (utf8 s).
Proof.
  unfold Within. destruct (max_input_len o) as [l|]; [|left; discriminate].
  destruct (le_lt_dec (length (utf8 s)) l) as [H|H]; [left|right; eauto]. intros l' [= <-]. exact H.
Qed.
Lemma chunk_split (bs : list N) : exists p bad, bs = utf8 p ++ bad /\ ScalarStr p /\ NoChar bad.
Proof.
  destruct (from_utf8_prefix bs) as [[p n] bad] eqn:E. exists p, bad.
  apply utf8_prefix_spec in E; auto. destruct E as (-> & _ & Hp & Hb). repeat split; auto.
  now apply no_char_first.
Qed.
Lemma whole_snoc pieces p : Whole pieces -> p <> [] -> ScalarStr p -> Whole (pieces ++ [p]).
Proof.
  intros HW Hne Hp q Hq. apply in_app_or in Hq. destruct Hq as [Hq|[<-|[]]]; auto.
Qed.
Lemma loads_exists path o reads : Nonempty reads -> exists r, Loads path o reads r.
Proof.
  intros Hne.
  assert (forall pieces, Whole pieces -> Within o (concat pieces) ->
    exists r, Loads path o (whole_reads pieces ++ reads) r) as H.
  2:{ apply (H []); [intros ? []|]. intros l _. simpl. lia. }
  induction reads as [|[bs|code] reads IH]; intros pieces HW Hi.
  - rewrite app_nil_r. eexists. now apply L_text.
  - destruct (chunk_split bs) as (p & bad & -> & Hp & Hb).
    destruct (within_dec o (concat pieces ++ p)) as [Hi'|(l & El & Hl)].
    + destruct bad as [|b bad].
      * assert (p <> []) as Hp'.
        { intros ->. apply (Hne []); [now left|reflexivity]. }
        rewrite app_nil_r. destruct (IH (nonempty_tail _ _ Hne) (pieces ++ [p])) as [r Hr].
        -- now apply whole_snoc.
        -- rewrite concat_app. simpl. now rewrite app_nil_r.
        -- exists r. unfold whole_reads in *. rewrite map_app, <- app_assoc in Hr. exact Hr.
      * eexists. now apply L_decode.
    + eexists. apply L_limit with (l := l); auto.
      intros ->. rewrite app_nil_r in Hl. specialize (Hi l El). lia.
  - eexists. now apply L_read.
Qed.

Lemma loads_iff path o reads r : Nonempty reads ->
  from_file path (inl reads) o = r <-> Loads path o reads r.
Proof.
  intros Hne. split; [|apply loads_sound]. intros <-.
  destruct (loads_exists path o reads Hne) as [r Hr].
  pose proof (loads_sound _ _ _ _ Hr) as E. unfold byte in *. now rewrite E.
Qed.

(** Reading stops at the limit. *)
Lemma limit_stops path o l pieces rest : Whole pieces -> max_input_len o = Some l ->
  l < length (utf8 (concat pieces)) ->
  from_file path (inl (whole_reads pieces ++ rest)) o = TErr (FileInput path (LengthLimitExceeded l)).
Proof.
  intros HW El Hl.
  assert (forall a b, Whole (a ++ b) -> Within o (concat a) -> l < length (utf8 (concat (a ++ b))) ->
    Loads path o (whole_reads (a ++ b) ++ rest) (TErr (FileInput path (LengthLimitExceeded l)))) as H.
  2:{ apply loads_sound. apply (H [] pieces); auto. intros x _. simpl. lia. }
  intros a b. revert a. induction b as [|p b IH]; intros a HW' Hi Hl'.
  - rewrite app_nil_r in Hl'. specialize (Hi l El). lia.
  - destruct (HW' p) as [Hne Hp]; [apply in_or_app; right; now left|].
    destruct (within_dec o (concat a ++ p)) as [Hi'|(k & Ek & Hk)].
    + specialize (IH (a ++ [p])). rewrite <- app_assoc in IH. apply IH; auto.
      rewrite concat_app. simpl. now rewrite app_nil_r.
    + assert (k = l) as -> by congruence. unfold whole_reads. rewrite map_app, <- app_assoc. cbn [map app].
      rewrite <- (app_nil_r (utf8 p)). apply L_limit; auto using no_char_nil.
      intros q Hq. apply HW'. apply in_or_app. now left.
Qed.
