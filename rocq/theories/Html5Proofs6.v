(** Normalization of newlines, and what readers of HTML make of texts that the parser of the
    library accepts. *)
From Coq Require Import String List NArith Bool Lia.
Import ListNotations.
From Verif Require Import Text Event Input Parse Selector Template SpecText SpecAttr SpecParse SpecRender
  SpecHtml5 SpecCharRef SpecHtmlRead TextProofs ParseProofs ParseProofs3 Html5Proofs Html5Proofs2 Html5Proofs5 ParseProofs9.
Open Scope N_scope.

(** ** Normalization *)

Lemma nl_other c s : c <> 13 -> newlines (c :: s) = c :: newlines s.
Proof. intros H. cbn [newlines]. now rewrite (eqb_false c 13). Qed.
Lemma nl_crlf s : newlines (13 :: 10 :: s) = newlines (10 :: s).
Proof. reflexivity. Qed.
Lemma nl_cr s : ~ Begins (eq 10) s -> newlines (13 :: s) = 10 :: newlines s.
Proof.
  intros H. cbn [newlines]. change (13 =? 13) with true. cbv iota.
  destruct s as [|c s]; auto. destruct (N.eq_dec c 10) as [->|Hc].
  - elim H. now exists 10, s.
  - destruct c as [|c]; auto. repeat (destruct c as [c|c|]; auto). now elim Hc.
Qed.
Lemma begins_dec c s : Begins (eq c) s \/ ~ Begins (eq c) s.
Proof.
  destruct s as [|d s]; [right; intros (? & ? & ? & _); discriminate|].
  destruct (N.eq_dec c d) as [->|H]; [left; now exists d, s|].
  right. intros (? & ? & E & ->). injection E as -> ->. now apply H.
Qed.
Lemma begins_10 s : Begins (eq 10) s -> exists r, s = 10 :: r.
Proof. intros (? & r & -> & <-). eauto. Qed.
Lemma nl_app a b : (forall p, a = p ++ [13] -> ~ Begins (eq 10) b) -> newlines (a ++ b) = newlines a ++ newlines b.
Proof.
  induction a as [|c a IH]; intros H; auto.
  assert (IH' : newlines (a ++ b) = newlines a ++ newlines b).
  { apply IH. intros p ->. now apply (H (c :: p)). }
  cbn [app]. destruct (N.eq_dec c 13) as [->|Hc].
  - destruct a as [|d a].
    + cbn [app]. rewrite (nl_cr b) by now apply (H []). reflexivity.
    + destruct (N.eq_dec d 10) as [->|Hd].
      * cbn [app] in *. now rewrite !nl_crlf, IH'.
      * assert (forall s, ~ Begins (eq 10) (d :: s)) as Hb.
        { intros s (? & ? & E & <-). injection E as -> _. now apply Hd. }
        cbn [app] in *. rewrite !nl_cr by auto. cbn [app]. now rewrite IH'.
  - rewrite !nl_other by auto. cbn [app]. now rewrite IH'.
Qed.
Lemma nl_before a b : ~ Begins (eq 10) b -> newlines (a ++ b) = newlines a ++ newlines b.
Proof. intros H. apply nl_app. auto. Qed.
Lemma nl_plain a b : ~ In 13 a -> newlines (a ++ b) = a ++ newlines b.
Proof.
  intros H. rewrite nl_app.
  - now rewrite (newlines_id a H).
  - intros p ->. elim H. apply in_or_app. right. now left.
Qed.
Lemma nl_nil s : newlines s = [] <-> s = [].
Proof.
  split; [|intros ->; reflexivity]. induction s as [|c s IH]; auto. intros H. exfalso.
  destruct (N.eq_dec c 13) as [->|Hc]; [|now rewrite nl_other in H].
  destruct (begins_dec 10 s) as [Hb|Hb]; [|now rewrite nl_cr in H].
  apply begins_10 in Hb as (r & ->). rewrite nl_crlf in H. specialize (IH H). discriminate.
Qed.
Lemma nl_begins (P : char -> Prop) : (P 10 <-> P 13) -> forall s, Begins P (newlines s) <-> Begins P s.
Proof.
  intros H s. destruct s as [|c s]; [reflexivity|].
  destruct (N.eq_dec c 13) as [Hc|Hc].
  - assert (exists r, newlines (c :: s) = 10 :: r) as (r & E).
    { subst c. destruct (begins_dec 10 s) as [Hb|Hb]; [|rewrite nl_cr by auto; eauto].
      apply begins_10 in Hb as (r & ->). rewrite nl_crlf, nl_other by discriminate. eauto. }
    rewrite E, !begins_cons, Hc. exact H.
  - rewrite nl_other by auto. rewrite !begins_cons. tauto.
Qed.
Lemma nl_in c s : In c (newlines s) -> c <> 13 /\ (In c s \/ c = 10 /\ In 13 s).
Proof.
  induction s as [|d s IH]; [easy|]. destruct (N.eq_dec d 13) as [->|Hd].
  - destruct (begins_dec 10 s) as [Hb|Hb].
    + apply begins_10 in Hb as (r & ->). rewrite nl_crlf. intros H. apply IH in H. simpl in *. intuition.
    + rewrite nl_cr by auto. intros [<-|H]; [split; [discriminate|right; simpl; auto]|].
      apply IH in H. simpl. intuition.
  - rewrite nl_other by auto. intros [<-|H]; [simpl; auto|]. apply IH in H. simpl. intuition.
Qed.
Lemma space_1013 : Space 10 <-> Space 13.
Proof. unfold Space; simpl. split; intros _; left; lia. Qed.
Lemma delim_1013 : Delimiter 10 <-> Delimiter 13.
Proof. unfold Delimiter; simpl. tauto. Qed.
Lemma eq_1013 c : c <> 10 -> c <> 13 -> (c = 10 <-> c = 13).
Proof. intros; split; intros; contradiction. Qed.
Lemma nl_blank w : Blank w -> Blank (newlines w).
Proof.
  intros H. apply List.Forall_forall. intros c Hc. apply nl_in in Hc as [_ [Hc|[-> Hc]]].
  - now apply (blank_in w).
  - apply space_1013. now apply (blank_in w).
Qed.
Lemma nl_gap w s : Gap w s -> Gap (newlines w) (newlines s) /\ newlines (w ++ s) = newlines w ++ newlines s.
Proof.
  intros [H1 H2]. split; [split; [now apply nl_blank|now rewrite (nl_begins _ space_1013)]|].
  apply nl_before. intros (c & r & -> & <-). apply H2. exists 10, r. split; auto.
  unfold Space; simpl; left; lia.
Qed.
Lemma nl_word r : WordEnds r -> WordEnds (newlines r).
Proof.
  intros [->|H]; [now left|right]. now rewrite (nl_begins _ delim_1013).
Qed.
Lemma nl_valid n : ValidName n -> ~ In 13 n.
Proof.
  intros [_ H] Hc. destruct (H 13 Hc) as (_ & Hs & _). apply Hs. unfold AsciiSpace. simpl. lia.
Qed.
Lemma nl_name n r : Name n r -> Name n (newlines r).
Proof. intros [[H1 [H2 H3]] H4]. repeat (split; auto). now apply nl_word. Qed.
Lemma nl_cons c s : c <> 13 -> newlines (c :: s) = c :: newlines s.
Proof. apply nl_other. Qed.
Lemma nl_end w c s : c <> 10 -> c <> 13 -> newlines (w ++ c :: s) = newlines w ++ c :: newlines s.
Proof.
  intros H1 H2. rewrite nl_before, nl_other; auto. intros (d & r & E & <-). injection E as -> _. now apply H1.
Qed.

Lemma nl_attrs s l r : Attrs s l r -> Attrs (newlines s) (map nl_attribute l) (newlines r).
Proof.
  induction 1 as [r|n w s l r Hn Hg Hb Hs IH|n w1 w2 w3 v w4 s l r Hn H1 H2 H3 Hv H4 Hs IH].
  - constructor.
  - destruct (nl_gap _ _ Hg) as [Hg' E].
    rewrite nl_plain by (apply nl_valid, Hn). rewrite E. cbn [map].
    change (nl_attribute (Attribute (name n) None)) with (Attribute (name n) None).
    apply A_flag; auto.
    + rewrite <- E. now apply nl_name.
    + rewrite nl_begins; [auto|]. now split.
  - rewrite nl_plain by (apply nl_valid, Hn).
    rewrite nl_end by discriminate. rewrite nl_end by discriminate.
    destruct (nl_gap w3 v H3) as [Hg3 E3]. destruct (nl_gap w4 s H4) as [Hg4 E4].
    rewrite (app_assoc w3 v), (nl_end (w3 ++ v)) by discriminate.
    rewrite E3, E4, <- (app_assoc (newlines w3)). cbn [map].
    change (nl_attribute (Attribute (name n) (Some (raw v)))) with (Attribute (name n) (Some (raw (newlines v)))).
    apply A_value; auto using nl_blank.
    + apply nl_name in Hn. rewrite nl_end in Hn by discriminate. exact Hn.
    + intros Hq. apply nl_in in Hq as [_ [Hq|[Hq _]]]; [auto|discriminate].
Qed.
Lemma nl_tag s n a slash : WrittenTag s n a slash -> WrittenTag (newlines s) n (map nl_attribute a) slash.
Proof.
  intros (r & w & w' & s' & -> & Hw & Hn & Hg & Ha & Hr).
  destruct (nl_gap _ _ Hg) as [Hg' E].
  exists (newlines r), (newlines w), (newlines w'), (newlines s').
  split; [|split; [|split; [|split; [|split]]]]; auto using nl_blank, nl_attrs.
  - rewrite nl_other by discriminate. f_equal. rewrite nl_before.
    + f_equal. rewrite nl_plain by (apply nl_valid, Hn). now rewrite E.
    + destruct Hn as [_ [Hne Hv]]. destruct n as [|c n]; [easy|]. intros (d & q & Ed & <-).
      injection Ed as -> _. destruct (Hv 10 (or_introl eq_refl)) as (_ & Hs & _). apply Hs.
      unfold AsciiSpace. simpl. lia.
  - rewrite <- E. now apply nl_name.
  - destruct slash.
    + destruct Hr as (u & Hu & ->). exists (newlines u). split; auto using nl_blank.
      rewrite nl_other by discriminate. now rewrite nl_end by discriminate.
    + subst r. reflexivity.
Qed.
Lemma valid_not_lf n s : ValidName n -> ~ Begins (eq 10) (n ++ s).
Proof.
  intros [Hne Hv] (d & q & Ed & <-). destruct n as [|c n]; [easy|].
  injection Ed as -> _. destruct (Hv 10 (or_introl eq_refl)) as (_ & Hs & _). apply Hs.
  unfold AsciiSpace. simpl. lia.
Qed.
Lemma nl_end_tag s n : EndTag s n -> EndTag (newlines s) n.
Proof.
  intros (w & w' & w'' & -> & H1 & H2 & H3 & Hn).
  exists (newlines w), (newlines w'), (newlines w''). split.
  - rewrite nl_other by discriminate. f_equal. rewrite nl_end by discriminate. f_equal. f_equal.
    rewrite nl_before by (apply valid_not_lf, Hn). f_equal.
    rewrite nl_plain by (apply nl_valid, Hn). now rewrite nl_end by discriminate.
  - split; [|split; [|split]]; auto using nl_blank.
    apply nl_name in Hn. rewrite nl_end in Hn by discriminate. exact Hn.
Qed.

(** ** Tidy markup *)

Lemma nl_unquoted s : forall i c, In c (unquoted i (newlines s)) -> c <> 13 /\ (In c (unquoted i s) \/ c = 10).
Proof.
  induction s as [|d s IH]; intros i c H; [easy|]. destruct (N.eq_dec d 13) as [->|Hd].
  - assert (G : forall x, In x (unquoted i s) -> In x (unquoted i (13 :: s))).
    { intros x Hx. cbn [unquoted]. change (13 =? 34) with false. cbv iota. destruct i; [auto|now right]. }
    destruct (begins_dec 10 s) as [Hb|Hb].
    + apply begins_10 in Hb as (r & ->). rewrite nl_crlf in H. apply IH in H as [H1 [H2|H2]]; auto.
    + rewrite nl_cr in H by auto. cbn [unquoted] in H. change (10 =? 34) with false in H. cbv iota in H.
      destruct i.
      * apply IH in H as [H1 [H2|H2]]; auto.
      * destruct H as [<-|H]; [split; [discriminate|auto]|]. apply IH in H as [H1 [H2|H2]]; auto.
  - rewrite nl_other in H by auto. cbn [unquoted] in H |- *. destruct (d =? 34) eqn:E.
    + destruct H as [<-|H]; [split; [discriminate|left; now left]|].
      apply IH in H as [H1 [H2|H2]]; auto. split; auto. left. now right.
    + destruct i; [now apply IH|]. destruct H as [<-|H]; [split; [auto|left; now left]|].
      apply IH in H as [H1 [H2|H2]]; auto. split; auto. left. now right.
Qed.
Lemma nl_trimmed s : forall i, Trimmed i s -> Trimmed i (newlines s).
Proof.
  induction s as [|d s IH]; intros i H; [easy|]. cbn [Trimmed] in H. destruct (N.eq_dec d 13) as [->|Hd].
  - change (13 =? 34) with false in H. cbv iota in H. destruct (begins_dec 10 s) as [Hb|Hb].
    + apply begins_10 in Hb as (r & ->). rewrite nl_crlf. now apply IH.
    + rewrite nl_cr by auto. cbn [Trimmed]. change (10 =? 34) with false. cbv iota. now apply IH.
  - rewrite nl_other by auto. cbn [Trimmed]. destruct (d =? 34); [|now apply IH].
    destruct H as [H1 H2]. split; [|now apply IH]. now rewrite (nl_begins _ space_1013).
Qed.
Lemma nl_prefix p : ~ In 10 p -> forall s q, newlines s = p ++ q -> exists q', s = p ++ q' /\ newlines q' = q.
Proof.
  induction p as [|c p IH]; intros Hp s q E; [exists s; auto|].
  destruct s as [|d s]; [discriminate|]. destruct (N.eq_dec d 13) as [->|Hd].
  - exfalso. assert (exists r, newlines (13 :: s) = 10 :: r) as (r & E').
    { destruct (begins_dec 10 s) as [Hb|Hb]; [|rewrite nl_cr by auto; eauto].
      apply begins_10 in Hb as (r & ->). rewrite nl_crlf, nl_other by discriminate. eauto. }
    assert (E2 : 10 :: r = c :: p ++ q) by (rewrite <- E'; exact E).
    injection E2 as <- _. apply Hp. now left.
  - rewrite nl_other in E by auto. injection E as -> E. simpl in Hp.
    destruct (IH ltac:(tauto) s q E) as (q' & -> & H). exists q'. auto.
Qed.
Lemma nl_neatly s : TidyMarkup s -> Neatly (newlines s).
Proof.
  intros (H1 & H2 & H3). split; [|split].
  - intros p c r Er Hp Hc. assert (Hl : ~ In 10 p).
    { destruct Hp as [<-|[<-|[<-|[]]]]; plain. }
    destruct (nl_prefix p Hl s (c :: r) Er) as (q' & -> & Eq).
    assert (Hb : Begins Space q').
    { rewrite <- (nl_begins _ space_1013), Eq. now exists c, r. }
    destruct Hb as (d & r' & -> & Hd). now apply (H1 p d r').
  - intros c Hc Hs. apply nl_unquoted in Hc as [Hc [Hi| ->]]; [|reflexivity].
    apply white_spec. specialize (H2 c Hi Hs). unfold HtmlSpace in H2. simpl in *. intuition.
  - now apply nl_trimmed.
Qed.

(** ** Slices *)

Lemma same_name_big n k : SameName n k -> (forall c, In c k -> 65 <= c) -> forall c, In c n -> 65 <= c.
Proof.
  induction 1 as [|x y n k H _ IH]; intros Hk c; [easy|]. intros [->|E].
  - specialize (Hk y (or_introl eq_refl)). unfold SameLetter, char in *. lia.
  - apply IH; auto. intros d Hd. apply Hk. now right.
Qed.
Lemma doctype_big kw : SameName kw (lit "doctype") -> forall c, In c kw -> 65 <= c.
Proof.
  intros H. apply (same_name_big _ _ H). intros d Hd. repeat (destruct Hd as [<-|Hd]; [easy|]). destruct Hd.
Qed.
Lemma nl_written s ev : SliceOf s ev -> Tidy s ev -> Written (newlines s) (nl_event ev).
Proof.
  intros Hs Ht.
  assert (Hraw : forall c, ev = RawData c -> c = raw s) by (intros c ->; exact Hs).
  destruct ev as [|d|d|d|d|t a|t|t a|t a]; cbn [SliceOf Tidy nl_event] in *; try (inversion Hs; fail).
  - inversion Hs as [| |w kw w' c w'' H1 H2 H3 H4 H5 H6| | | |]; subst.
    apply nl_neatly in Ht.
    assert (Q : ~ In 13 kw).
    { intros X. apply (doctype_big _ H2) in X. lia. }
    assert (Q10 : ~ Begins (eq 10) (kw ++ w' ++ c ++ w'' ++ [62])).
    { destruct kw as [|x kw]; [inversion H2|]. intros (? & ? & E & <-). injection E as -> _.
      pose proof (doctype_big _ H2 10 (or_introl eq_refl)). lia. }
    assert (Hc : ~ In 13 c). { intros X. apply (doctype_letters _ H5) in X. lia. }
    assert (Hc10 : forall r, ~ Begins (eq 10) (c ++ r)).
    { intros r (x & q & E & <-). destruct c as [|y c]; [inversion H5|]. injection E as -> _.
      pose proof (doctype_letters _ H5 10 (or_introl eq_refl)). lia. }
    assert (E : newlines (lit "<!" ++ w ++ kw ++ w' ++ c ++ w'' ++ [62]) =
                lit "<!" ++ newlines w ++ kw ++ newlines w' ++ c ++ newlines w'' ++ [62]).
    { rewrite nl_plain by plain. f_equal. rewrite nl_before by auto. f_equal.
      rewrite nl_plain by auto. f_equal. rewrite nl_before by auto. f_equal.
      rewrite nl_plain by auto. f_equal. now rewrite nl_end by discriminate. }
    rewrite E in Ht |- *.
    apply Wr_doctype; auto using nl_blank.
    + apply nl_word in H4. rewrite nl_before in H4 by (rewrite <- (app_nil_r c); auto).
      now rewrite (newlines_id c) in H4.
    + cbn. now rewrite newlines_id.
  - inversion Hs; subst.
    replace (newlines (lit "<!--" ++ c ++ lit "-->")) with (lit "<!--" ++ newlines c ++ lit "-->").
    + now apply Wr_comment.
    + rewrite nl_plain by plain. f_equal. symmetry. apply (nl_end c 45 [45; 62]); discriminate.
  - inversion Hs; subst. eapply Wr_text; [left; reflexivity|reflexivity].
  - rewrite Hs. eapply Wr_text; [right; reflexivity|reflexivity].
  - inversion Hs as [| | | | | |? n ? HT]; subst. destruct HT as (r & (_ & _ & w & w' & s' & HT) & Hr).
    apply Wr_tag with n (map nl_attribute a) false (name n); auto using nl_neatly; [|now left].
    apply nl_tag. exists r, w, w', s'. tauto.
  - inversion Hs; subst. eapply Wr_end; [apply nl_end_tag; eassumption|reflexivity|now apply nl_neatly].
  - inversion Hs as [| | | | |? n ? HT|]; subst. destruct HT as (r & (_ & _ & w & w' & s' & HT) & Hr).
    apply Wr_tag with n (map nl_attribute a) true (name n); auto using nl_neatly; [|now right; right].
    apply nl_tag. exists r, w, w', s'. tauto.
  - inversion Hs as [| | | |? n ? slash HT| |]; subst. destruct HT as (r & (_ & _ & w & w' & s' & HT) & Hr).
    apply Wr_tag with n (map nl_attribute a) slash (name n); auto using nl_neatly; [|now right; left].
    apply nl_tag. exists r, w, w', s'. tauto.
Qed.

(** ** Whole texts *)

Definition Texty (ev : event) : Prop := exists c, ev = Data c \/ ev = RawData c.
(** No text is next to another one. *)
Definition Apart (evs : list event) : Prop :=
  forall p x y q, evs = p ++ x :: y :: q -> ~ (Texty x /\ Texty y).

Lemma tag_ends s n a slash : Tag s n a slash -> exists p, s = 60 :: p ++ [62].
Proof.
  intros (r & (_ & _ & w & w' & s' & -> & _ & _ & _ & Ha) & Hr).
  destruct (attrs_suffix _ _ _ Ha) as [q ->].
  assert (exists u, r = u ++ [62]) as (u & ->).
  { destruct slash; [destruct Hr as (u & _ & ->); now exists (47 :: u)|exists []; exact Hr]. }
  exists (w ++ n ++ w' ++ q ++ u). now rewrite <- !app_assoc.
Qed.
Lemma markup_ends s ev : SliceOf s ev -> ~ Texty ev -> exists p, s = 60 :: p ++ [62].
Proof.
  intros H Ht. assert (Hs : Spells s ev).
  { destruct ev; auto. elim Ht. eexists; right; reflexivity. }
  clear H. destruct Hs as [s H1 H2|c H|w kw w' c w'' _ _ _ _ _ _|s n H|s n a slash H _|s n a H _|s n a H _];
    try (now apply tag_ends in H).
  - elim Ht. eexists; left; reflexivity.
  - exists (lit "!--" ++ c ++ lit "--"). rewrite <- !app_assoc. reflexivity.
  - exists (33 :: w ++ kw ++ w' ++ c ++ w''). cbn [app]. now rewrite <- !app_assoc.
  - destruct H as (w & w' & w'' & -> & _). exists (w ++ 47 :: w' ++ n ++ w'').
    rewrite <- !app_assoc. cbn [app]. now rewrite <- !app_assoc.
Qed.
Lemma texty_dec ev : Texty ev \/ ~ Texty ev.
Proof. unfold Texty. destruct ev; eauto; right; intros (c & [H|H]); discriminate. Qed.
Lemma apart_cons ev evs : Apart (ev :: evs) -> Apart evs.
Proof. intros H p x y q ->. now apply (H (ev :: p) x y q). Qed.
Lemma nl_concat slices evs : Forall2 SliceOf slices evs -> Apart evs ->
  newlines (concat slices) = concat (map newlines slices).
Proof.
  induction 1 as [|s ev slices evs H F IH]; intros A; [reflexivity|]. cbn [concat map].
  rewrite nl_app; [f_equal; apply IH; eapply apart_cons; eauto|].
  intros p E Hb. destruct (texty_dec ev) as [Ht|Ht].
  - inversion F as [|s2 ev2 sl evs2 H2 F2]; subst; [destruct Hb as (? & ? & ? & _); discriminate|].
    assert (~ Texty ev2) as Ht2. { intros X. apply (A [] ev ev2 evs2); auto. }
    destruct (markup_ends _ _ H2 Ht2) as (q & ->). destruct Hb as (? & ? & Eb & <-). discriminate.
  - destruct (markup_ends _ _ H Ht) as (q & ->).
    change (60 :: q ++ [62]) with ((60 :: q) ++ [62]) in E.
    apply app_inj_tail in E as [_ E]. discriminate.
Qed.

Lemma reads_apart limit s pre rest m st evs : Reads limit s pre rest m st evs ->
  Apart evs /\ ((exists p x, evs = p ++ [x] /\ Texty x) -> m = None /\ (rest = [] \/ exists r, rest = 60 :: r)).
Proof.
  induction 1 as [|pre slice rest m m' st st' evs ev H [IH1 IH2] Hne Hi Hn].
  - split; [intros [|? []] x y q E; discriminate|]. intros ([|? ?] & ? & E & _); discriminate.
  - assert (L : forall p x, evs ++ [ev] = p ++ [x] -> ev = x).
    { intros p x E. now apply app_inj_tail in E as [_ E]. }
    split.
    + intros p x y q E [Hx Hy]. destruct q as [|q0 q1]; [|assert (Hq : q0 :: q1 <> []) by discriminate; set (q := q0 :: q1) in *].
      * assert (E' : evs ++ [ev] = (p ++ [x]) ++ [y]) by now rewrite <- app_assoc.
        apply app_inj_tail in E' as [-> ->].
        destruct IH2 as [-> IH2]; [eauto|].
        inversion Hi as [? ? ? ? Hs Ha Hb|]; subst.
        destruct Hy as (c & [->| ->]); inversion Hs; subst.
        destruct slice as [|d slice]; [easy|]. destruct IH2 as [E2|(r & E2)]; [discriminate|].
        injection E2 as -> _. match goal with X : ~ In 60 _ |- _ => apply X end. now left.
      * destruct (exists_last Hq) as (q' & z & ->).
        assert (E' : evs ++ [ev] = (p ++ x :: y :: q') ++ [z]) by (rewrite <- app_assoc; exact E).
        apply app_inj_tail in E' as [-> _]. now apply (IH1 p x y q').
    + intros (p & x & E & Hx). apply L in E. subst x. clear IH1 IH2 L.
      inversion Hi as [? ? ? ? Hs Ha Hb|t ? ? Hr Hno]; subst.
      * destruct Hx as (c & [->| ->]); [|inversion Hs]. split; [exact Ha|].
        destruct Hb as [->|(? & r & -> & <-)]; eauto.
      * split; auto. destruct Hr as [->|(sl & rest' & n & -> & He & _)]; auto.
        destruct He as (w & w' & w'' & -> & _). right. cbn [app]. eauto.
Qed.
Lemma from_str_apart s o evs : from_str s o = TOk evs -> Apart evs.
Proof. intros H. apply from_str_doc in H. apply (reads_apart _ _ _ _ _ _ _ H). Qed.

Lemma parsed_read b ref s o evs slices : Local_ref ref -> from_str s o = TOk evs ->
  s = concat slices -> Forall2 SliceOf slices evs -> Forall2 Tidy slices evs ->
  Standard b (map nl_event evs) ->
  map unflag (read_from b ref SData 0 (newlines s)) =
  map unflag (shown ref b false [] (map nl_event evs)).
Proof.
  intros L H -> Hs Ht Hstd. pose proof (nl_concat _ _ Hs (from_str_apart _ _ _ H)) as E.
  assert (F : Forall2 Written (map newlines slices) (map nl_event evs)).
  { clear -Hs Ht. revert Ht. induction Hs as [|sl ev slices evs H1 H2 IH]; intros Ht; [constructor|].
    inversion Ht; subst. cbn [map]. constructor; [now apply nl_written|now apply IH]. }
  rewrite E. exact (reading_standard b ref L _ Hstd _ F [] (fun x => x)).
Qed.
Lemma parsed_tokens b s o evs slices : from_str s o = TOk evs ->
  s = concat slices -> Forall2 SliceOf slices evs -> Forall2 Tidy slices evs ->
  Standard b (map nl_event evs) ->
  map unflag (tokens b s) = map unflag (flat_map event_tokens (map nl_event evs)).
Proof.
  intros H E Hs Ht Hstd. unfold tokens. rewrite <- verbatim_read.
  rewrite (parsed_read b verbatim s o evs slices verbatim_local H E Hs Ht Hstd), verbatim_shown. reflexivity.
Qed.
