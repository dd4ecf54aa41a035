(** Proofs about texts that are continued: which errors stay. *)
From Coq Require Import String List NArith Arith Bool Lia.
Import ListNotations.
From Verif Require Import Text Event Input Parse Selector Template SpecText SpecAttr SpecLocation SpecParse
  SpecDocument TextProofs AttrProofs AttrProofs2 LocationProofs ParseProofs ParseProofs2 ParseProofs3
  ParseProofs4 ParseProofs5 ParseProofs6 ParseProofs7 ParseProofs10.
Local Open Scope N_scope.

(** ** What has been read stays read *)

Lemma item_extend m slice rest ev m' t : rest <> [] -> Item m slice rest ev m' ->
  Item m slice (rest ++ t) ev m'.
Proof.
  intros Hne H. destruct H as [slice rest ev m' Hs Ha Hl|r slice rest Hr Hf].
  - constructor; auto. destruct ev; auto. destruct Hl as [Hl|Hl]; [congruence|]. right. now apply begins_app.
  - destruct Hr as [Hr|Hr]; [congruence|]. constructor.
    + right. destruct Hr as (sl & rs & n & -> & He & Hn). exists sl, (rs ++ t), n.
      split; auto. now rewrite <- app_assoc.
    + intros p q E Hq X. apply (Hf p q E Hq). apply (ends_raw_keep r q rest (rest ++ t)); auto.
      right. apply begins_app; auto. eapply ends_raw_60; eauto.
Qed.
Lemma reads_extend limit s pre rest m st evs t : Reads limit s pre rest m st evs -> rest <> [] ->
  Reads limit (s ++ t) pre (rest ++ t) m st evs.
Proof.
  induction 1 as [|pre slice rest m m' st st' evs ev HR IH Hne Hi Hn]; intros Hr.
  - constructor.
  - eapply R_step; eauto.
    + rewrite app_assoc. apply IH. exact Hne.
    + destruct slice, rest; discriminate || congruence.
    + now apply item_extend.
Qed.

(** ** What is wrong stays wrong *)

Lemma located_extend pre s r l t : LocatedAt pre s r l -> LocatedAt pre (s ++ t) (r ++ t) l.
Proof. intros (q & -> & H). exists q. split; auto. now rewrite <- app_assoc. Qed.
Lemma located_word pre s x r l t z : LocatedAt pre s (x ++ r) l -> x ++ r ++ t = z ->
  LocatedAt pre (s ++ t) z l.
Proof. intros H <-. rewrite app_assoc. now apply located_extend. Qed.
Lemma gap_word w x r t z : Gap w (x ++ r) -> x <> [] -> x ++ r ++ t = z -> Gap w z.
Proof. intros [G G'] H <-. split; auto. now rewrite begins_app in * by auto. Qed.
Lemma located_end pre s l : LocatedAt pre s [] l -> AtPrefix (pre ++ s) l.
Proof. intros (q & E & H). rewrite app_nil_r in E. now subst. Qed.
Lemma attrs_extend s l r t : Attrs s l r -> r <> [] -> Attrs (s ++ t) l (r ++ t) /\ s <> [].
Proof.
  intros H Hr. induction H as [r|n w s l r Hn G He Ha IH|n w1 w2 w3 v w4 s l r Hn H1 H2 G3 Hv G4 Ha IH].
  - split; [constructor|auto].
  - destruct (IH Hr) as [IH1 Hs]. split.
    + replace ((n ++ w ++ s) ++ t) with (n ++ w ++ s ++ t) by (norm; reflexivity). constructor; auto.
      * rewrite app_assoc, name_app; auto. now destruct w.
      * destruct G as [G G']. split; auto. now rewrite begins_app.
      * now rewrite begins_app.
    + pose proof (proj1 (proj1 Hn)). now destruct n.
  - destruct (IH Hr) as [IH1 Hs]. split.
    + replace ((n ++ w1 ++ 61 :: w2 ++ 34 :: w3 ++ v ++ 34 :: w4 ++ s) ++ t)
        with (n ++ w1 ++ 61 :: w2 ++ 34 :: w3 ++ v ++ 34 :: w4 ++ s ++ t) by (norm; reflexivity).
      constructor; auto. destruct G4 as [G G']. split; auto. now rewrite begins_app.
    + pose proof (proj1 (proj1 Hn)). now destruct n.
Qed.

(** texts that become a comment or a doctype when continued *)
Lemma comment_appears s t : ~ CommentStart s -> CommentStart (s ++ t) ->
  exists y, y <> [] /\ s ++ y = lit "<!--".
Proof.
  intros H [r E]. apply app_eq_app in E. destruct E as [l [[E1 E2]|[E1 E2]]].
  - exfalso. apply H. exists l. exact E1.
  - exists l. split; auto. intros ->. apply H. exists []. rewrite app_nil_r in E1 |- *. now symmetry.
Qed.
Lemma doctype_appears s t : ~ DoctypeStart s -> DoctypeStart (s ++ t) ->
  exists y w kw, y <> [] /\ s ++ y = lit "<!" ++ w ++ kw /\ Blank w /\ SameName kw (lit "doctype").
Proof.
  intros H (w & kw & r & E & Hw & Hk & Hr).
  replace (lit "<!" ++ w ++ kw ++ r) with ((lit "<!" ++ w ++ kw) ++ r) in E by (now rewrite <- !app_assoc).
  apply app_eq_app in E. destruct E as [l [[E1 E2]|[E1 E2]]].
  - exfalso. apply H. exists w, kw, l. split; [now rewrite <- !app_assoc in E1|]. repeat (split; auto).
    destruct l as [|c l]; [now left|]. subst r. now rewrite word_ends_app in Hr by discriminate.
  - exists l, w, kw. split; [|auto]. intros ->. apply H. exists w, kw, [].
    rewrite app_nil_r in E1. rewrite app_nil_r. repeat (split; auto). now left.
Qed.
Definition Letter (c : char) : Prop := 65 <= c <= 90 \/ 97 <= c <= 122.
Lemma keyword_letters kw c : SameName kw (lit "doctype") -> In c kw -> Letter c.
Proof. intros H Hi. exact (proj2 (letters_same _ _ H letters_lit_doctype) c Hi). Qed.
Lemma delimiter_letter c : Delimiter c -> ~ Letter c.
Proof. unfold Delimiter, Letter. simpl. lia. Qed.
(** a text after the beginning of a doctype, up to its keyword, is a part of the keyword *)
Lemma doctype_tail (z x y w kw : str) : z ++ x ++ y = w ++ kw -> Blank w -> SameName kw (lit "doctype") ->
  x <> [] -> ~ Begins Space x -> forall c, In c x -> Letter c.
Proof.
  intros E Hw Hk Hne Hs c Hi. apply app_eq_app in E. destruct E as [l [[E1 E2]|[E1 E2]]].
  - apply (keyword_letters kw); auto. rewrite E2, !in_app_iff. auto.
  - destruct l as [|d l].
    + simpl in E2. apply (keyword_letters kw); auto. rewrite <- E2, in_app_iff. auto.
    + exfalso. destruct x as [|e x]; [congruence|]. injection E2 as -> _. apply Hs. apply begins_cons.
      eapply blank_in; eauto. rewrite E1, in_app_iff. right. now left.
Qed.
Lemma ends_letter r : WordEnds r -> r <> [] -> exists c, In c r /\ ~ Letter c.
Proof.
  intros [->|(c & r' & -> & Hc)] Hne; [congruence|]. exists c. split; [now left|].
  now apply delimiter_letter.
Qed.
Lemma tag_start_extend s n a r t : TagStart s n a r -> ~ Begins Space r ->
  (exists c, In c r /\ ~ Letter c) -> TagStart (s ++ t) n a (r ++ t).
Proof.
  intros (Hc & Hd & w & w' & s' & -> & Hw & Hn & G & Ha) Hs (c & Hi & Hb).
  assert (Hr : r <> []) by (intros ->; destruct Hi).
  destruct (attrs_extend _ _ _ t Ha Hr) as [Ha' Hs'].
  destruct (attrs_suffix _ _ _ Ha) as [q Eq].
  assert (Hn0 : n <> []) by apply Hn.
  assert (Hns : ~ Begins Space n). { pose proof (name_no_space n _ [] Hn) as X. now rewrite app_nil_r in X. }
  split; [|split].
  - intros X. destruct (comment_appears _ _ Hc X) as (y & _ & E). change (lit "<!--") with [60; 33; 45; 45] in E. injection E as E.
    destruct Hn as [(_ & Hdn & [Hr'|(d & r' & Er & Hdel)]) _].
    + destruct w'; [simpl in Hr'; congruence|discriminate].
    + assert (In d [33; 45; 45]) as Z.
      { rewrite <- E. rewrite Er. rewrite !in_app_iff. left. right. right. now left. }
      unfold Delimiter in Hdel. simpl in Z, Hdel. lia.
  - intros X. destruct (doctype_appears _ _ Hd X) as (y & v & kw & _ & E & Hv & Hk).
    change (60 :: w ++ n ++ w' ++ s') with ([60] ++ w ++ n ++ w' ++ s') in E.
    injection E as E. destruct w as [|d w].
    + destruct n as [|d n]; [congruence|]. injection E as _ E.
      apply Hb. apply (doctype_tail (n ++ w' ++ q) r y v kw); auto. rewrite <- E, Eq. norm. reflexivity.
    + injection E as -> _. apply ns33. now inversion Hw.
  - exists w, w', (s' ++ t). split; [norm; reflexivity|]. split; auto. split; [|split; auto].
    + rewrite app_assoc, name_app; auto. now destruct w'.
    + destruct G as [G G']. split; auto. now rewrite begins_app.
Qed.
Lemma bang_end w r t : Gap w r -> WordEnds r -> r <> [] -> ~ CommentStart (60 :: w ++ r) ->
  ~ DoctypeStart (60 :: w ++ r) ->
  ~ CommentStart ((60 :: w ++ r) ++ t) /\ ~ DoctypeStart ((60 :: w ++ r) ++ t).
Proof.
  intros [Hw Hs] Hr Hne Hc Hd. destruct Hr as [->|(c & r' & -> & Hdel)]; [congruence|].
  assert (H33 : w ++ c :: r' <> [] /\ ~ Begins (eq 33) (w ++ c :: r')).
  { split; [now destruct w|]. intros (d & z & E & <-). destruct w as [|x w].
    - injection E as -> _. unfold Delimiter in Hdel. simpl in Hdel. lia.
    - injection E as -> _. apply ns33. now inversion Hw. }
  destruct H33 as [Hne' H33]. split; intros [x X].
  - apply H33. simpl in X. injection X as X. apply (begins_app _ _ t); auto. eexists. eexists. split; [exact X|reflexivity].
  - destruct X as (kw & z & X & _). simpl in X. injection X as X. apply H33.
    apply (begins_app _ _ t); auto. eexists. eexists. split; [exact X|reflexivity].
Qed.

Lemma word_extend (x r t : str) e : Word x r -> NameError x e -> (e = IdNotAscii \/ r <> []) ->
  exists x' r' : str, x ++ r ++ t = x' ++ r' /\ Word x' r' /\ NameError x' e /\ (r <> [] -> x' = x).
Proof.
  intros Hx He Hor. destruct r as [|c r].
  - destruct Hor as [->|]; [|congruence]. simpl. destruct (word_split t) as [H|(w & r & -> & H)].
    + exists x, t. repeat (split; auto); try apply Hx.
    + exists (x ++ w), r. split; [now rewrite <- app_assoc|]. split; [|split; [|congruence]].
      * destruct Hx as (Hne & Hd & _), H as (_ & Hd' & Hr). split; [now destruct x|]. split; auto.
        intros y Hy. apply in_app_iff in Hy. destruct Hy; auto.
      * destruct He as (y & Hy & H128). exists y. split; auto. apply in_app_iff. auto.
  - exists x, ((c :: r) ++ t). split; auto. rewrite word_app by discriminate. auto.
Qed.
Lemma word_at_end pre s x r l : LocatedAt pre s (x ++ r) l -> Word x r -> r = [] -> WordAtEnd (pre ++ s) l.
Proof.
  intros (q & -> & H) (_ & Hd & _) ->. rewrite app_nil_r. exists (pre ++ q), x.
  split; [now rewrite app_assoc|]. auto.
Qed.
Lemma begins_word (P : char -> Prop) x r y : x <> [] -> Begins P (x ++ r) <-> Begins P (x ++ y).
Proof. intros H. now rewrite !begins_app. Qed.
Definition nonempty_dec (r : str) : r = [] \/ r <> [].
Proof. destruct r; [left|right]; auto; discriminate. Defined.
Definition not_ascii_dec (e : identifier_error) : e = IdNotAscii \/ e <> IdNotAscii.
Proof. destruct e; [right|left|right|right]; auto; discriminate. Defined.

Lemma fault_extend limit pre s st e (t : str) : Fault limit pre s st e -> ~ Pending (pre ++ s) e ->
  Fault limit pre (s ++ t) st e.
Proof.
  intros F P. destruct e; cbn [Fault Pending] in *; try tauto.
  - destruct F as (Hl & w & kw & w' & w'' & r & -> & F). split; auto.
    exists w, kw, w', w'', (r ++ t). split; [now rewrite <- !app_assoc|tauto].
  - destruct F as (a & r & Hl & Hb & F).
    assert (Hr : r <> []) by (intros ->; apply P; now apply located_end).
    exists a, (r ++ t). split; [now apply located_extend|]. split; [now rewrite begins_app|].
    destruct F as [(TS & Hb' & Hw)|(w & TS & G)].
    + left. assert (Hs : ~ Begins Space r).
      { destruct (tag_reach [] _ _ _ _ TS) as (q & fuel & _ & _ & Hs & _). exact Hs. }
      split; [|split].
      * apply tag_start_extend; auto. now apply ends_letter.
      * now rewrite begins_app.
      * now apply word_ends_app.
    + right. exists w. split.
      * change (47 :: w ++ r ++ t) with ((47 :: w) ++ r ++ t). rewrite app_assoc.
        apply tag_start_extend; auto; [intros (c & z & E & X); injection E as <- _; now apply ns47|].
        exists 47. split; [now left|]. apply delimiter_letter, delim47.
      * destruct G as [G G']. split; auto. now rewrite begins_app.
  - destruct F as (w & w' & w'' & r & -> & Hw & Hw' & G & Hn & Hb & Hl).
    assert (Hr : r <> []) by (intros ->; apply P; now apply located_end).
    exists w, w', w'', (r ++ t). split; [norm; reflexivity|]. split; auto. split; auto. split.
    { destruct G as [G G']. split; auto. now rewrite begins_app. }
    split. { rewrite app_assoc, name_app; auto. now destruct w''. }
    split; [now rewrite begins_app|]. now apply located_extend.
  - destruct F as (Hc & Hd & w & r & -> & G & Hr & Hb & Hl).
    assert (Hne : r <> []) by (intros ->; apply P; now apply located_end).
    destruct (bang_end w r t G Hr Hne Hc Hd) as [Hc' Hd'].
    split; [exact Hc'|]. split; [exact Hd'|]. exists w, (r ++ t). split; [norm; reflexivity|]. split.
    { destruct G as [G G']. split; auto. now rewrite begins_app. }
    split; [now apply word_ends_app|]. split; [now rewrite begins_app|]. now apply located_extend.
  - destruct F as (Hc & Hd & w & x & r & -> & G & Hx & He & Hl).
    pose proof Hl as (q0 & Eq0 & Hl0). 
    assert (Hor : error = IdNotAscii \/ r <> []).
    { destruct (nonempty_dec r) as [->|]; auto. destruct (not_ascii_dec error); auto. exfalso.
      apply P. left. split; auto. apply (word_at_end pre _ x []); auto. }
    assert (Hbang : ~ CommentStart ((60 :: w ++ x ++ r) ++ t) /\ ~ DoctypeStart ((60 :: w ++ x ++ r) ++ t)).
    { split; intros X.
      - destruct (comment_appears _ _ Hc X) as (y & Hy & E). change (lit "<!--") with [60; 33; 45; 45] in E. injection E as E.
        assert (Hw : w = []).
        { destruct w as [|c w]; auto. injection E as -> _. destruct G as [G _]. inversion G; subst.
          exfalso. now apply ns33. }
        subst w. simpl in E.
        assert (Hr0 : r = []).
        { destruct Hx as (Hne & Hdx & [->|(c & r' & -> & Hcd)]); auto. exfalso.
          assert (In c [33; 45; 45]) as Z by (rewrite <- E; rewrite !in_app_iff; left; right; now left).
          unfold Delimiter in Hcd. simpl in Z, Hcd. lia. }
        subst r. destruct Hor as [->|]; [|congruence]. destruct He as (c & Hi & H128).
        assert (In c [33; 45; 45]) as Z by (rewrite <- E; rewrite !in_app_iff; auto).
        simpl in Z. lia.
      - destruct (doctype_appears _ _ Hd X) as (y & v & kw & _ & E & Hv & Hk). apply P. right.
        assert (Hw : w = []).
        { injection E as E. destruct w as [|c w]; auto. injection E as -> _. destruct G as [G _]. inversion G; subst.
          exfalso. now apply ns33. }
        subst w. exists pre, (x ++ r), y, v, kw. split; [reflexivity|]. split.
        + assert (q0 = [60]). { apply (app_inv_tail (x ++ r)). symmetry. exact Eq0. }
          now subst.
        + split; [|auto]. exact E. }
    destruct Hbang as [Hc' Hd'].
    split; [exact Hc'|]. split; [exact Hd'|].
    destruct (word_extend x r t error Hx He Hor) as (x' & r' & E & Hx' & He' & _).
    exists w, x', r'. split; [norm; do 2 f_equal; exact E|]. split.
    { exact (gap_word _ _ _ _ _ G (proj1 Hx) E). }
    split; auto. split; auto. exact (located_word _ _ _ _ _ _ _ Hl E).
  - destruct F as (w & w' & r & -> & Hw & G & Hr & Hl).
    assert (Hne : r <> []) by (intros ->; apply P; now apply located_end).
    exists w, w', (r ++ t). split; [norm; reflexivity|]. split; auto. split.
    { destruct G as [G G']. split; auto. now rewrite begins_app. }
    split; [now apply word_ends_app|]. now apply located_extend.
  - destruct F as (w & w' & x & r & -> & Hw & G & Hx & He & Hl).
    assert (Hor : error = IdNotAscii \/ r <> []).
    { destruct (nonempty_dec r) as [->|]; auto. destruct (not_ascii_dec error); auto. exfalso.
      apply P. split; auto. apply (word_at_end pre _ x []); auto. }
    destruct (word_extend x r t error Hx He Hor) as (x' & r' & E & Hx' & He' & _).
    exists w, w', x', r'. split; [norm; do 2 f_equal; f_equal; f_equal; exact E|]. split; auto. split.
    { exact (gap_word _ _ _ _ _ G (proj1 Hx) E). }
    split; auto. split; auto. exact (located_word _ _ _ _ _ _ _ Hl E).
  - destruct F as (n & a & x & r & TS & Hx & He & Hl).
    assert (Hor : error = IdNotAscii \/ r <> []).
    { destruct (nonempty_dec r) as [->|]; auto. destruct (not_ascii_dec error); auto. exfalso.
      apply P. split; auto. apply (word_at_end pre _ x []); auto. }
    assert (Hs : ~ Begins Space (x ++ r)).
    { destruct (tag_reach [] _ _ _ _ TS) as (q & fuel & _ & _ & Hs & _). exact Hs. }
    destruct (word_extend x r t error Hx He Hor) as (x' & r' & E & Hx' & He' & _).
    exists n, a, x', r'.
    split; [|split; [auto|split; [auto|exact (located_word _ _ _ _ _ _ _ Hl E)]]].
    assert (E' : x' ++ r' = (x ++ r) ++ t) by (rewrite <- app_assoc; symmetry; exact E). rewrite E'.
    apply tag_start_extend; auto. destruct (nonempty_dec r) as [->|Hr].
    + destruct Hor as [->|]; [|congruence]. destruct He as (c & Hi & H128). exists c.
      split; [apply in_app_iff; auto|]. unfold Letter. lia.
    + destruct (ends_letter r (proj2 (proj2 Hx)) Hr) as (c & Hi & Hc). exists c.
      split; [apply in_app_iff; auto|auto].
  - destruct F as (a & w & w' & r & TS & Hw & Hn & G & Hb & Hl).
    assert (Hne : r <> []) by (intros ->; apply P; now apply located_end).
    exists a, w, w', (r ++ t). split.
    { replace (attribute_name ++ w ++ 61 :: w' ++ r ++ t) with ((attribute_name ++ w ++ 61 :: w' ++ r) ++ t)
        by (norm; reflexivity).
      apply tag_start_extend; auto.
      - eapply name_no_space; eauto.
      - exists 61. split; [rewrite !in_app_iff; right; right; now left|]. apply delimiter_letter, delim61. }
    split; auto. split; auto. split; [|split; [now rewrite begins_app|now apply located_extend]].
    destruct G as [G G']. split; auto. now rewrite begins_app.
  - destruct F as (Hl & El & Ek & slice & rest & tag0 & a & -> & F). split; auto. split; auto. split; auto.
    exists slice, (rest ++ t), tag0, a. split; [now rewrite <- app_assoc|auto].
  - destruct F as (Hl & -> & slice & rest & -> & F). split; auto. split; auto.
    exists slice, (rest ++ t). split; [now rewrite <- app_assoc|auto].
  - destruct F as (Hl & p & st' & -> & Hp & slice & rest & -> & F). split; auto. exists p, st'.
    split; auto. split; auto. exists slice, (rest ++ t). split; [now rewrite <- app_assoc|auto].
Qed.
