(** Rendering then parsing. *)
From Coq Require Import String List NArith Arith Bool Lia.
Import ListNotations.
From Verif Require Import Text Event Input Parse Selector Template SpecText SpecAttr SpecLocation SpecParse
  SpecRender TextProofs AttrProofs AttrProofs2 LocationProofs ParseProofs ParseProofs2 ParseProofs3 ParseProofs4
  ParseProofs5 ParseProofs6.
Local Open Scope N_scope.

(** ** The rendering of an event spells it *)

Definition plain_name (n : str) : Prop := ValidName n /\ (forall c, In c n -> ~ Delimiter c).
Lemma name_plain n r : Name n r -> plain_name n.
Proof. intros [(_ & H & _) V]. split; auto. Qed.
Lemma plain_ne n : plain_name n -> n <> [].
Proof. intros [(H & _) _]. exact H. Qed.
Lemma plain_name_ends n r : plain_name n -> WordEnds r -> Name n r.
Proof. intros H Hr. split; [|apply H]. split; [now apply plain_ne|]. split; [apply H|exact Hr]. Qed.
Lemma delim62 : Delimiter 62. Proof. unfold Delimiter; simpl; tauto. Qed.
Lemma delim47 : Delimiter 47. Proof. unfold Delimiter; simpl; tauto. Qed.
Lemma delim61 : Delimiter 61. Proof. unfold Delimiter; simpl; tauto. Qed.
Lemma delim32 : Delimiter 32. Proof. unfold Delimiter; simpl; tauto. Qed.
Lemma delim60 : Delimiter 60. Proof. unfold Delimiter; simpl; tauto. Qed.
Lemma delim34 : Delimiter 34. Proof. unfold Delimiter; simpl; tauto. Qed.
Lemma space32 : Space 32. Proof. unfold Space; simpl; tauto. Qed.
Lemma ends_cons c r : Delimiter c -> WordEnds (c :: r).
Proof. intros H. right. now rewrite begins_cons. Qed.
Lemma plain_begins n r c : plain_name n -> Delimiter c -> ~ Begins (eq c) (n ++ r).
Proof.
  intros H Hc B. rewrite begins_app in B by (now apply plain_ne). apply begins_eq in B.
  destruct B as [x E]. destruct H as [_ H]. apply (H c); auto. rewrite E. now left.
Qed.
Lemma plain_no_space n r : plain_name n -> ~ Begins Space (n ++ r).
Proof.
  intros H. apply (name_no_space n []). apply plain_name_ends; auto. now left.
Qed.

(** an attribute as it is read back: white space at the start of the value is dropped *)
Definition ReadBack (a a' : attribute) : Prop :=
  plain_name (id_str (a_name a)) /\ a_name a' = name (id_str (a_name a)) /\
  match a_value a with
  | None => a_value a' = None
  | Some v => exists w v', enc_str v = w ++ v' /\ Gap w v' /\ ~ In 34 v' /\ a_value a' = Some (raw v')
  end.

Lemma attributes_read items items' : Forall2 ReadBack items items' -> forall w r,
  Gap w r -> WordEnds (w ++ r) -> ~ Begins (eq 61) r ->
  exists w0 s', display_attributes_loop false items ++ w ++ r = w0 ++ s' /\ Gap w0 s' /\
    WordEnds (w0 ++ s') /\ ~ Begins (eq 61) s' /\ Attrs s' items' r.
Proof.
  induction 1 as [|a a' l l' (Hn & En & Hv) _ IH]; intros w r G Hw H61.
  - exists w, r. simpl. split; auto. split; auto. split; auto. split; auto. constructor.
  - destruct (IH w r G Hw H61) as (w1 & s1 & E & G1 & W1 & H1 & A1).
    destruct a as [n v], a' as [n' v']. cbn [a_name a_value] in *. subst n'.
    exists [32], (display_attribute (Attribute n v) ++ w1 ++ s1).
    assert (Es : display_attributes_loop false (Attribute n v :: l) ++ w ++ r
                 = [32] ++ display_attribute (Attribute n v) ++ w1 ++ s1).
    { cbn [display_attributes_loop]. rewrite <- E. unfold c_space. now rewrite <- !app_assoc. }
    split; [exact Es|].
    assert (Hd : exists x, display_attribute (Attribute n v) = id_str n ++ x).
    { unfold display_attribute. cbn [a_name a_value]. eauto. }
    destruct Hd as [x Hd].
    split.
    { split; [constructor; [apply space32|constructor]|]. rewrite Hd, <- app_assoc. now apply plain_no_space. }
    split; [apply ends_cons, delim32|].
    split.
    { rewrite Hd, <- app_assoc. apply plain_begins; auto. apply delim61. }
    unfold display_attribute. cbn [a_name a_value]. destruct v as [v|].
    + destruct Hv as (w3 & v3 & Ev & G3 & H34 & ->). rewrite Ev.
      replace ((id_str n ++ [c_eq; c_quot] ++ (w3 ++ v3) ++ [c_quot]) ++ w1 ++ s1)
        with (id_str n ++ [] ++ 61 :: [] ++ 34 :: w3 ++ v3 ++ 34 :: w1 ++ s1)
        by (unfold c_eq, c_quot; norm; reflexivity).
      apply A_value; auto; try (now constructor).
      apply plain_name_ends; auto. simpl. apply ends_cons, delim61.
    + rewrite Hv, app_nil_r. apply A_flag; auto. now apply plain_name_ends.
Qed.

(** the rendered tag *)
Lemma tag_not_bang (n r : str) : n <> [] -> no_bang n -> ~ CommentStart (60 :: n ++ r) /\ ~ DoctypeStart (60 :: n ++ r).
Proof.
  intros Hne H. split.
  - intros [x E]. injection E as E. apply H. apply (begins_app _ n r); auto. rewrite E.
    rewrite begins_cons. reflexivity.
  - intros (w & kw & x & E & _). injection E as E. apply H. apply (begins_app _ n r); auto. rewrite E.
    rewrite begins_cons. reflexivity.
Qed.
Lemma tag_read tag items items' tail (slash : bool) : plain_name (id_str tag) -> no_bang (id_str tag) ->
  Forall2 ReadBack items items' ->
  tail = (if slash then [32; 47; 62] else [62]) ->
  Tag (60 :: display_tag tag items ++ tail) (id_str tag) items' slash.
Proof.
  intros Hn Hb Hi Et.
  assert (Ed : display_tag tag items = id_str tag ++ display_attributes_loop false items).
  { unfold display_tag, display_attributes. destruct items; reflexivity. }
  rewrite Ed. rewrite <- app_assoc.
  set (wr := if slash return (str * str) then ([32], [47; 62]) else ([], [62])).
  assert (Ew : tail = fst wr ++ snd wr) by (subst; destruct slash; reflexivity).
  destruct (attributes_read _ _ Hi (fst wr) (snd wr)) as (w0 & s' & E & G & W & H61 & A).
  { unfold wr. destruct slash; simpl; split; try (rewrite begins_cons); auto with gaps.
    - constructor; [apply space32|constructor].
    - constructor. }
  { unfold wr. destruct slash; simpl; apply ends_cons; [apply delim32|apply delim62]. }
  { unfold wr. destruct slash; simpl; rewrite begins_cons; discriminate. }
  rewrite Ew, E. exists (snd wr). split.
  - destruct (tag_not_bang (id_str tag) (w0 ++ s')) as [B1 B2]; auto using plain_ne.
    split; auto. split; auto. exists [], w0, s'. split; [reflexivity|]. split; [constructor|].
    split; [now apply plain_name_ends|]. split; auto.
  - unfold wr. destruct slash; [|reflexivity]. exists []. split; [constructor|reflexivity].
Qed.

(** ** Parsed events *)

Lemma attrs_plain s l r : Attrs s l r -> Forall2 ReadBack l l.
Proof.
  induction 1 as [|n w s l r Hn G H61 _ IH|n w1 w2 w3 v w4 s l r Hn H1 H2 G3 H34 G4 _ IH];
    constructor; auto.
  - split; [eapply name_plain; eauto|]. split; reflexivity.
  - split; [eapply name_plain; eauto|]. split; [reflexivity|]. exists [], v. split; [reflexivity|].
    split; [|auto]. split; [constructor|apply G3].
Qed.
Lemma tag_plain s n a slash : Tag s n a slash -> plain_name n /\ Forall2 ReadBack a a.
Proof.
  intros (r & (_ & _ & w & w' & s' & _ & _ & Hn & _ & Ha) & _). split.
  - eapply name_plain; eauto.
  - eapply attrs_plain; eauto.
Qed.

Lemma end_tag_read n : plain_name n -> EndTag ([60; 47] ++ n ++ [62]) n.
Proof.
  intros H. exists [], [], []. split; [reflexivity|]. split; [constructor|]. split; [constructor|].
  split; [constructor|]. apply plain_name_ends; auto. apply ends_cons, delim62.
Qed.
Lemma spells_display slice ev : Spells slice ev -> NoBang ev -> Spells (display_event ev) ev.
Proof.
  intros H Hb. destruct H as [s Hne H60|c Hc|w kw w' c w'' Hw Hk Hw' We Hs Hw''|s n He|s n a slash T V|s n a T V|s n a T V];
    cbn [display_event enc_str raw name id_str]; unfold c_lt, c_gt, c_slash.
  - now constructor.
  - now constructor.
  - change (Spells (lit "<!" ++ [] ++ lit "doctype" ++ [32] ++ c ++ [] ++ [62]) (Doctype (raw c))).
    apply Sp_doctype; auto; try (now constructor).
    + apply same_name_refl.
    + constructor; [apply space32|constructor].
    + simpl. apply ends_cons, delim32.
  - constructor. apply end_tag_read. destruct He as (w & w' & w'' & _ & _ & _ & _ & Hn).
    eapply name_plain; eauto.
  - destruct (tag_plain _ _ _ _ T) as [Hn Ha]. apply Sp_void with false; auto.
    apply (tag_read (name n)); auto.
  - destruct (tag_plain _ _ _ _ T) as [Hn Ha]. apply Sp_self; auto.
    apply (tag_read (name n)); auto.
  - destruct (tag_plain _ _ _ _ T) as [Hn Ha]. apply Sp_open; auto.
    apply (tag_read (name n)); auto.
Qed.
Lemma spells_starts slice ev : Spells slice ev ->
  match ev with Data _ => ~ Begins (eq 60) slice | _ => Begins (eq 60) slice end.
Proof.
  assert (X : forall s n a slash, Tag s n a slash -> Begins (eq 60) s).
  { intros s n a slash (r & (_ & _ & w & w' & s' & -> & _) & _). rewrite begins_cons. reflexivity. }
  destruct 1 as [s Hne H60| | |s n (w & w' & w'' & -> & _)| | |]; eauto;
    try (unfold lit; simpl; rewrite begins_cons; reflexivity).
  intros (c & r & -> & <-). apply H60. now left.
Qed.

(** ** Raw text stays raw text *)

Lemma ends_raw_keep t q s s' : (s' = [] \/ Begins (eq 60) s') -> q <> [] ->
  EndsRaw t (q ++ s') -> EndsRaw t (q ++ s).
Proof.
  intros Hs' Hq (sl & rs & n & E & He & Hn).
  destruct (end_tag_inside _ _ He) as (e' & Esl & H60).
  apply app_eq_app in E. destruct E as [l [[E1 E2]|[E1 E2]]].
  - exists sl, (l ++ s), n. split; auto. rewrite E1. now rewrite <- app_assoc.
  - destruct l as [|x l].
    + rewrite app_nil_r in E1. subst q. exists sl, s, n. auto.
    + exfalso. destruct q as [|c q]; [congruence|]. rewrite Esl in E1. injection E1 as _ E1.
      destruct Hs' as [->|B]; [destruct rs; discriminate|]. apply begins_eq in B. destruct B as [r ->].
      injection E2 as <- _. apply H60. rewrite E1. apply in_app_iff. right. now left.
Qed.

Lemma lex_head m s evs : Lex m s evs -> m = None -> Begins (eq 60) s ->
  exists ev evs', evs = ev :: evs' /\ (exists slice, Spells slice ev) /\
                  match ev with Data _ => False | _ => True end.
Proof.
  intros H -> B. inversion H as [|? slice rest ev m' evs' Hne Hi HL]; subst.
  - now apply begins_nil in B.
  - exists ev, evs'. split; auto. inversion Hi as [? ? ? ? Hs|]; subst. split; [eauto|].
    rewrite begins_app in B by (now apply spells_nonempty in Hs).
    apply spells_starts in Hs. destruct ev; auto.
Qed.
Lemma lex_display m s evs : Lex m s evs -> Forall NoBang evs -> Lex m (display_events evs) evs.
Proof.
  induction 1 as [m|m slice rest ev m' evs Hne Hi HL IH]; intros Hb; [constructor|].
  inversion Hb as [|? ? Hb1 Hb2]; subst. specialize (IH Hb2). cbn [display_events].
  assert (Hstart : m' = None -> (rest = [] -> display_events evs = []) /\
                   (Begins (eq 60) rest -> Begins (eq 60) (display_events evs))).
  { intros ->. split.
    - intros ->. inversion HL as [|? ? ? ? ? ? Hne']; subst; auto. congruence.
    - intros B. destruct (lex_head _ _ _ HL eq_refl B) as (e1 & evs1 & -> & (sl & Hs) & Hd).
      inversion Hb2 as [|? ? Hb3 _]; subst. apply spells_display in Hs; auto.
      cbn [display_events]. rewrite begins_app by (eapply spells_nonempty; eauto).
      apply spells_starts in Hs. destruct e1; auto; contradiction. }
  inversion Hi as [? ? ? ? Hs Ha Hd|t ? ? Hend Hmin]; subst.
  - pose proof (spells_display _ _ Hs Hb1) as Hs'. apply L_cons with m'; auto.
    + apply spells_nonempty in Hs'. intros E. apply app_eq_nil in E. tauto.
    + constructor; auto. destruct ev; auto. cbn [After] in Ha. destruct (Hstart Ha) as [Hs1 Hs2].
      destruct Hd; auto.
  - destruct (Hstart eq_refl) as [Hs1 Hs2]. change (display_event (RawData (raw slice))) with slice.
    assert (Hr : rest = [] -> display_events evs = []) by auto.
    apply L_cons with None; auto.
    + intros E. apply app_eq_nil in E. destruct E as [-> E]. simpl in Hne.
      destruct Hend as [->|Hend]; [congruence|]. apply ends_raw_60, Hs2 in Hend.
      rewrite E in Hend. now apply begins_nil in Hend.
    + constructor.
      * destruct Hend as [->|Hend]; auto. right. destruct Hend as (sl & rs & n & -> & He & Hn).
        destruct (lex_end_tag _ _ _ _ He HL) as (evs' & ->). cbn [display_events display_event].
        eexists _, (display_events evs'), n. split; [reflexivity|]. split; auto.
        apply end_tag_read. destruct He as (w & w' & w'' & _ & _ & _ & _ & Hn'). eapply name_plain; eauto.
      * intros p q E Hq X. apply (Hmin p q E Hq). revert X. apply ends_raw_keep; auto.
        destruct Hend as [->|Hend]; auto. right. apply Hs2. eapply ends_raw_60; eauto.
Qed.
Lemma document_display limit s evs : Document limit s evs -> Forall NoBang evs ->
  Document limit (display_events evs) evs.
Proof. rewrite !document_iff. intros [L R] H. split; auto. eapply lex_display; eauto. Qed.

Lemma round_trip s o evs : from_str s o = TOk evs -> Forall NoBang evs ->
  from_str (display_events evs) (Options (max_stack_depth o) None) = TOk evs.
Proof.
  intros H Hb. apply from_str_ok in H. destruct H as [H _]. apply parse_iff in H.
  apply from_str_ok. split; [|exact I]. apply parse_iff. cbn [max_stack_depth].
  eapply document_display; eauto.
Qed.
