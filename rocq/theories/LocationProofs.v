(** Proofs about locations. *)
From Coq Require Import List NArith Arith Bool Lia.
Import ListNotations.
From Verif Require Import Text Input SpecLocation TextProofs.
Local Open Scope nat_scope.

Lemma utf8_app a b : utf8 (a ++ b) = utf8 a ++ utf8 b.
Proof. apply flat_map_app. Qed.
Lemma len_utf8_char c : len_utf8 c = length (utf8_char c).
Proof.
  unfold len_utf8, utf8_char.
  destruct (c <? 128)%N, (c <? 2048)%N, (c <? 65536)%N; reflexivity.
Qed.
Lemma str_len_utf8 s : str_len s = length (utf8 s).
Proof.
  induction s as [|c s IH]; [reflexivity|]. unfold utf8. simpl. rewrite app_length.
  rewrite <- len_utf8_char. unfold utf8 in IH. rewrite <- IH. reflexivity.
Qed.
Lemma newlines_count s : length (filter (fun c => N.eqb c c_nl) s) = count_occ N.eq_dec s 10%N.
Proof.
  induction s as [|c s IH]; [reflexivity|]. cbn [filter count_occ]. unfold c_nl in *.
  destruct (N.eqb_spec c 10) as [->|Hc].
  - destruct (N.eq_dec 10 10); [|congruence]. simpl. now rewrite IH.
  - destruct (N.eq_dec c 10); [congruence|]. exact IH.
Qed.

Lemma last_line_unique p t t' : LastLine p t -> LastLine p t' -> t = t'.
Proof.
  intros [Ht H] [Ht' H']. destruct H as [->|[a ->]], H' as [E|[a' E]]; auto.
  - exfalso. apply Ht. rewrite E. apply in_or_app. right. now left.
  - exfalso. apply Ht'. rewrite <- E. apply in_or_app. right. now left.
  - revert a' E. induction a as [|x a IH]; intros [|y a'] E; simpl in E.
    + congruence.
    + injection E as E1 E2. exfalso. apply Ht. rewrite E2. apply in_or_app. right. now left.
    + injection E as E1 E2. exfalso. apply Ht'. rewrite <- E2. apply in_or_app. right. now left.
    + injection E as E1 E2. eauto.
Qed.

Lemma after_last_newline_spec s cur :
  (~ In 10%N s -> after_last_newline s cur = cur) /\
  (In 10%N s -> LastLine s (after_last_newline s cur)).
Proof.
  revert cur; induction s as [|c s IH]; intros cur; simpl; [split; [auto|tauto]|].
  unfold c_nl. destruct (N.eqb_spec c 10) as [->|Hc].
  - split; [intros H; exfalso; apply H; now left|]. intros _.
    destruct (in_dec N.eq_dec 10%N s) as [Hi|Hi].
    + destruct (proj2 (IH s) Hi) as [H1 [H2|[a H2]]].
      * exfalso. apply H1. now rewrite <- H2.
      * split; auto. right. exists (10%N :: a). rewrite H2 at 1. reflexivity.
    + rewrite (proj1 (IH s) Hi). split; auto. right. now exists [].
  - split.
    + intros H. apply IH. intros Hi. apply H. now right.
    + intros [?|Hi]; [congruence|]. destruct (proj2 (IH cur) Hi) as [H1 [H2|[a H2]]].
      * exfalso. apply H1. now rewrite <- H2.
      * split; auto. right. exists (c :: a). rewrite H2 at 1. reflexivity.
Qed.

Lemma last_line_app_no p t q : LastLine p t -> ~ In 10%N q -> LastLine (p ++ q) (t ++ q).
Proof.
  intros [Ht H] Hq. split; [intros Hi; apply in_app_or in Hi; tauto|].
  destruct H as [->|[a ->]]; auto. right. exists a. now rewrite <- app_assoc.
Qed.
Lemma last_line_app_nl p q t : In 10%N q -> LastLine q t -> LastLine (p ++ q) t.
Proof.
  intros Hi [Ht [->|[a ->]]]; [tauto|]. split; auto. right. exists (p ++ a).
  now rewrite <- app_assoc.
Qed.

Lemma at_prefix_start : AtPrefix [] at_start.
Proof.
  repeat split. exists []. repeat split; auto.
Qed.
Lemma at_prefix_consumed p l q : AtPrefix p l -> AtPrefix (p ++ q) (with_consumed l q).
Proof.
  intros (Hl & (t & Ht & Hc) & Ho). unfold with_consumed. split; [|split]; cbn [line column offset].
  - rewrite newlines_count, Hl, count_occ_app. apply eq_sym, Nat.add_assoc.
  - rewrite newlines_count. destruct (in_dec N.eq_dec 10%N q) as [Hi|Hi].
    + pose proof (proj1 (count_occ_In N.eq_dec q 10%N) Hi) as Hpos.
      replace (0 <? count_occ N.eq_dec q 10%N) with true by (symmetry; apply Nat.ltb_lt; lia).
      exists (after_last_newline q q). split; [|lia].
      apply last_line_app_nl; auto. now apply after_last_newline_spec.
    + pose proof (proj1 (count_occ_not_In N.eq_dec q 10%N) Hi) as Hz. rewrite Hz. simpl.
      rewrite (proj1 (after_last_newline_spec q q) Hi).
      exists (t ++ q). split; [now apply last_line_app_no|]. rewrite app_length. lia.
  - rewrite utf8_app, app_length, str_len_utf8. lia.
Qed.
Lemma at_prefix_unique p l l' : AtPrefix p l -> AtPrefix p l' -> l = l'.
Proof.
  intros (H1 & (t & Ht & H2) & H3) (H1' & (t' & Ht' & H2') & H3').
  rewrite (last_line_unique _ _ _ Ht Ht') in H2. destruct l, l'; simpl in *. congruence.
Qed.
Lemma at_prefix_pieces pieces l p : AtPrefix p l ->
  AtPrefix (p ++ concat pieces) (fold_left with_consumed pieces l).
Proof.
  revert l p; induction pieces as [|q qs IH]; intros l p H; simpl.
  - now rewrite app_nil_r.
  - rewrite app_assoc. apply IH. now apply at_prefix_consumed.
Qed.
Lemma at_prefix_all pieces : AtPrefix (concat pieces) (fold_left with_consumed pieces at_start).
Proof. apply (at_prefix_pieces pieces at_start []). apply at_prefix_start. Qed.
Lemma pieces_irrelevant ps qs : concat ps = concat qs ->
  fold_left with_consumed ps at_start = fold_left with_consumed qs at_start.
Proof.
  intros E. apply at_prefix_unique with (concat ps); [apply at_prefix_all|].
  rewrite E. apply at_prefix_all.
Qed.
