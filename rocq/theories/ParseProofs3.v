(** Proofs about the parser for start tags, data and raw text. *)
From Coq Require Import String List NArith Arith Bool Lia.
Import ListNotations.
From Verif Require Import Text Event Input Parse SpecText SpecAttr SpecLocation SpecParse
  TextProofs AttrProofs AttrProofs2 LocationProofs ParseProofs ParseProofs2.
Local Open Scope N_scope.

(** ** Attributes *)

(** the defects found while reading attributes, at the text [r] *)
Definition AttrFault (P r tag : str) (e : parse_error) : Prop :=
  match e with
  | InvalidAttributeIdentifier l err =>
      exists x r', r = x ++ r' /\ Word x r' /\ NameError x err /\ l = loc_of P
  | InvalidAttributeValue l n attr =>
      n = tag /\ exists w w' r', r = attr ++ w ++ 61 :: w' ++ r' /\ Blank w /\
        Name attr (w ++ [61]) /\ Gap w' r' /\ ~ Begins (eq 34) r' /\
        l = loc_of (P ++ attr ++ w ++ 61 :: w')
  | UnclosedAttributeValue l n attr =>
      n = tag /\ exists w w' r', r = attr ++ w ++ 61 :: w' ++ 34 :: r' /\ Blank w /\
        Name attr (w ++ [61]) /\ Blank w' /\ ~ In 34 r' /\
        l = loc_of (P ++ attr ++ w ++ 61 :: w')
  | _ => False
  end.

Lemma attrs_loop_cases fuel tag p s acc : (length s < fuel)%nat -> ~ Begins Space s ->
  (exists q r l, s = q ++ r /\ Attrs s l r /\ WordEnds r /\ ~ Begins Space r /\
     parse_attributes_loop fuel tag (at_ p s) acc = POk (acc ++ l, at_ (p ++ q) r)) \/
  (exists q r l e, s = q ++ r /\ Attrs s l r /\ AttrFault (p ++ q) r tag e /\
     parse_attributes_loop fuel tag (at_ p s) acc = PErr e).
Proof.
  revert p s acc; induction fuel as [|fuel IH]; intros p s acc L Hs; [lia|].
  cbn [parse_attributes_loop].
  destruct (input_is_empty (at_ p s)) eqn:Ee.
  { left. destruct s; [|discriminate]. exists [], [], []. rewrite !app_nil_r.
    repeat (split; auto). constructor. now left. }
  clear Ee. unfold try_parse_attribute.
  destruct (identifier_cases s) as [E|(x & r & -> & [Hn|(Hx & err & He)])].
  - rewrite take_identifier_none by auto. left. exists [], s, []. rewrite !app_nil_r.
    repeat (split; auto). constructor.
  - rewrite take_identifier_some by auto. unfold c_eq, c_quot.
    pose proof (proj1 (proj1 Hn)) as Hxne.
    assert (Lx : (0 < length x)%nat). { destruct x; [congruence|simpl; lia]. }
    rewrite app_length in L.
    destruct (gap_split r) as (w & r1 & -> & G). rewrite skip_gap by auto.
    destruct (begins_eq_dec 61 r1) as [B|B].
    + apply begins_eq in B. destruct B as [r2 ->]. rewrite take_char_yes.
      apply name_snoc in Hn.
      destruct (gap_split r2) as (w2 & r3 & -> & G2). rewrite skip_gap by auto.
      change (in_loc (at_ ((((p ++ x) ++ w) ++ [61]) ++ w2) r3))
        with (loc_of ((((p ++ x) ++ w) ++ [61]) ++ w2)).
      destruct (begins_eq_dec 34 r3) as [B|B].
      * apply begins_eq in B. destruct B as [r4 ->]. rewrite take_char_yes.
        destruct (gap_split r4) as (w3 & r5 & -> & G3). rewrite skip_gap by auto.
        destruct (char_split 34 r5) as [Hc|(v & r6 & -> & Hv)].
        -- rewrite take_until_char_none by auto. right.
           exists [], (x ++ w ++ 61 :: w2 ++ 34 :: w3 ++ r5), []. eexists.
           split; [reflexivity|]. split; [constructor|]. split; [|reflexivity].
           cbn [AttrFault]. split; auto. exists w, w2, (w3 ++ r5). repeat (split; auto).
           ++ apply G.
           ++ apply G2.
           ++ intros Hi. apply in_app_or in Hi. destruct Hi as [Hi|Hi]; auto.
              eapply blank_in in Hi; [|apply G3]. now apply ns34.
           ++ f_equal. norm. reflexivity.
        -- rewrite take_until_char_some by auto. rewrite take_char_yes.
           destruct (gap_split r6) as (w4 & r7 & -> & G4). rewrite skip_gap by auto.
           assert (G3' : Gap w3 v).
           { destruct G3 as [G3 G3']. split; auto. destruct v; [apply begins_nil|].
             simpl in G3'. now rewrite begins_cons in *. }
           destruct (IH (((((((((p ++ x) ++ w) ++ [61]) ++ w2) ++ [34]) ++ w3) ++ v) ++ [34]) ++ w4)
                        r7 (acc ++ [Attribute (name x) (Some (raw v))]))
             as [(q & r & l & -> & Ha & Hr & Hr' & R)|(q & r & l & e & -> & Ha & Hf & R)].
           { repeat (rewrite app_length in L; cbn [length] in L). lia. }
           { apply G4. }
           ++ left.
              exists (x ++ w ++ 61 :: w2 ++ 34 :: w3 ++ v ++ 34 :: w4 ++ q), r,
                     (Attribute (name x) (Some (raw v)) :: l).
              split; [norm; reflexivity|]. split.
              { apply A_value; auto; try apply G; try apply G2. }
              split; auto. split; auto. etransitivity; [exact R|]. norm. reflexivity.
           ++ right.
              exists (x ++ w ++ 61 :: w2 ++ 34 :: w3 ++ v ++ 34 :: w4 ++ q), r,
                     (Attribute (name x) (Some (raw v)) :: l), e.
              split; [norm; reflexivity|]. split.
              { apply A_value; auto; try apply G; try apply G2. }
              split; [|exact R].
              norm_in Hf. exact Hf.
      * rewrite take_char_no by auto. right.
        exists [], (x ++ w ++ 61 :: w2 ++ r3), []. eexists.
        split; [reflexivity|]. split; [constructor|]. split; [|reflexivity].
        cbn [AttrFault]. split; auto. exists w, w2, r3. repeat (split; auto).
        ++ apply G.
        ++ f_equal. norm. reflexivity.
    + rewrite take_char_no by auto. rewrite skip_none by apply G.
      destruct (IH ((p ++ x) ++ w) r1 (acc ++ [Attribute (name x) None]))
        as [(q & r & l & -> & Ha & Hr & Hr' & R)|(q & r & l & e & -> & Ha & Hf & R)].
      { rewrite app_length in L. lia. }
      { apply G. }
      * left. exists (x ++ w ++ q), r, (Attribute (name x) None :: l).
        split; [norm; reflexivity|]. split; [now apply A_flag|].
        split; auto. split; auto. etransitivity; [exact R|]. norm. reflexivity.
      * right. exists (x ++ w ++ q), r, (Attribute (name x) None :: l), e.
        split; [norm; reflexivity|]. split; [now apply A_flag|].
        split; [|exact R]. norm_in Hf. exact Hf.
  - rewrite (take_identifier_err _ _ _ err) by auto. right.
    exists [], (x ++ r), []. eexists. split; [reflexivity|]. split; [constructor|]. split; [|reflexivity].
    cbn [AttrFault]. exists x, r. rewrite app_nil_r. auto.
Qed.

Lemma attrs_loop_complete s l r : Attrs s l r -> forall rest fuel tag p acc,
  (length s < fuel)%nat -> r <> [] -> WordEnds r ->
  exists q, s = q ++ r /\
    parse_attributes_loop fuel tag (at_ p (s ++ rest)) acc
    = POk (acc ++ l, at_ (p ++ q) (r ++ rest)).
Proof.
  induction 1 as [r|n w s l r Hn G He Ha IH|n w1 w2 w3 v w4 s l r Hn H1 H2 G3 Hv G4 Ha IH];
    intros rest fuel tag p acc L Hne Hr; (destruct fuel as [|fuel]; [lia|]); cbn [parse_attributes_loop].
  - exists []. split; auto. rewrite !app_nil_r.
    replace (input_is_empty (at_ p (r ++ rest))) with false.
    2:{ destruct r; [congruence|reflexivity]. }
    unfold try_parse_attribute. rewrite take_identifier_none; auto. now apply word_ends_app.
  - assert (Hsne : s <> []). { intros ->. inversion Ha; subst; try congruence; destruct n0; try discriminate.
      all: match goal with H : Name [] _ |- _ => destruct H as [[H _] _]; congruence end. }
    destruct (IH rest fuel tag ((p ++ n) ++ w) (acc ++ [Attribute (name n) None])) as (q & -> & R); auto.
    { rewrite !app_length in L. pose proof (proj1 (proj1 Hn)). destruct n; [congruence|]. simpl in L. lia. }
    exists (n ++ w ++ q). split; [norm; reflexivity|].
    replace (input_is_empty (at_ p ((n ++ w ++ q ++ r) ++ rest))) with false.
    2:{ pose proof (proj1 (proj1 Hn)). destruct n; [congruence|reflexivity]. }
    unfold try_parse_attribute, c_eq. norm.
    replace (n ++ w ++ q ++ r ++ rest) with (n ++ (w ++ q ++ r) ++ rest) by (norm; reflexivity).
    rewrite take_identifier_some.
    2:{ rewrite name_app; auto. now destruct w. }
    replace ((w ++ q ++ r) ++ rest) with (w ++ (q ++ r) ++ rest) by (norm; reflexivity).
    assert (Bs : forall P, Begins P ((q ++ r) ++ rest) <-> Begins P (q ++ r)).
    { intros P. now apply begins_app. }
    rewrite skip_gap by (split; [apply G|rewrite Bs; apply G]).
    rewrite take_char_no by now rewrite Bs. rewrite skip_none by (rewrite Bs; apply G).
    rewrite R. norm. reflexivity.
  - assert (Hsne : s <> []). { intros ->. inversion Ha; subst; try congruence; destruct n0; try discriminate.
      all: match goal with H : Name [] _ |- _ => destruct H as [[H _] _]; congruence end. }
    destruct (IH rest fuel tag (p ++ n ++ w1 ++ 61 :: w2 ++ 34 :: w3 ++ v ++ 34 :: w4)
                (acc ++ [Attribute (name n) (Some (raw v))])) as (q & -> & R); auto.
    { repeat (rewrite app_length in L; cbn [length] in L). lia. }
    exists (n ++ w1 ++ 61 :: w2 ++ 34 :: w3 ++ v ++ 34 :: w4 ++ q). split; [norm; reflexivity|].
    match goal with |- context[input_is_empty ?i] => replace (input_is_empty i) with false end.
    2:{ pose proof (proj1 (proj1 Hn)). destruct n; [congruence|reflexivity]. }
    unfold try_parse_attribute, c_eq, c_quot. norm.
    rewrite take_identifier_some by now apply name_snoc.
    rewrite skip_gap by auto with gaps. rewrite take_char_yes.
    rewrite skip_gap by auto with gaps. rewrite take_char_yes.
    rewrite skip_gap.
    2:{ destruct G3 as [G3 G3']. split; auto. destruct v; simpl; [rewrite begins_cons; apply ns34|].
        now rewrite begins_cons in *. }
    rewrite take_until_char_some by auto. rewrite take_char_yes.
    assert (Bs : forall P, Begins P ((q ++ r) ++ rest) <-> Begins P (q ++ r)).
    { intros P. now apply begins_app. }
    replace (q ++ r ++ rest) with ((q ++ r) ++ rest) by (norm; reflexivity).
    rewrite skip_gap by (split; [apply G4|rewrite Bs; apply G4]).
    norm. norm_in R. etransitivity; [exact R|]. reflexivity.
Qed.

(** ** Kinds of tags *)

Lemma existsb_name n l : is_ascii n = true -> (forall v, In v l -> is_ascii v = true) ->
  (existsb (fun v => identifier_eq n v) l = true <-> exists v, In v l /\ SameName n v).
Proof.
  intros Hn Hl. rewrite existsb_exists. split.
  - intros (v & Hv & E). apply identifier_eq_spec in E. exists v. tauto.
  - intros (v & Hv & E). exists v. split; auto. apply identifier_eq_spec. auto.
Qed.
Lemma void_ascii v : In v VOID_TAGS -> is_ascii v = true.
Proof.
  intros H. assert (X : forallb is_ascii VOID_TAGS = true) by reflexivity.
  rewrite forallb_forall in X. auto.
Qed.
Lemma raw_ascii v : In v RAW_TAGS -> is_ascii v = true.
Proof.
  intros H. assert (X : forallb is_ascii RAW_TAGS = true) by reflexivity.
  rewrite forallb_forall in X. auto.
Qed.
Lemma is_void_spec n : ValidName n -> (is_void_tag n = true <-> VoidName n).
Proof.
  intros H. apply existsb_name; [now apply valid_ascii|apply void_ascii].
Qed.
Lemma is_void_false n : ValidName n -> (is_void_tag n = false <-> ~ VoidName n).
Proof.
  intros H. rewrite <- is_void_spec by auto. destruct (is_void_tag n); intuition congruence.
Qed.

Definition mode_of (m : option str) : mode :=
  match m with None => ModeData | Some t => ModeRawData t end.

Lemma raw_unique t u : In t RawNames -> In u RawNames -> SameName t u -> t = u.
Proof.
  intros Ht Hu H.
  assert (X : forallb (fun t => forallb (fun u => implb (eq_ignore_ascii_case t u) (str_eqb t u))
                                        RawNames) RawNames = true) by reflexivity.
  rewrite forallb_forall in X. specialize (X t Ht). rewrite forallb_forall in X. specialize (X u Hu).
  apply eq_ignore_spec in H. rewrite H in X. now apply str_eqb_spec.
Qed.
Lemma void_not_raw n t : VoidName n -> In t RawNames -> ~ SameName n t.
Proof.
  intros (v & Hv & H) Ht H'.
  assert (X : forallb (fun v => forallb (fun t => negb (eq_ignore_ascii_case v t)) RawNames)
                      VoidNames = true) by reflexivity.
  rewrite forallb_forall in X. specialize (X v Hv). rewrite forallb_forall in X. specialize (X t Ht).
  assert (E : eq_ignore_ascii_case v t = true).
  { apply eq_ignore_spec. eapply same_name_trans; [apply same_name_sym|]; eauto. }
  now rewrite E in X.
Qed.
Lemma mode_for_open n a m : ValidName n ->
  (After (OpeningTag (name n) a) m <-> mode_for_tag n false = mode_of m).
Proof.
  intros Hv. cbn [After]. change (id_str (name n)) with n.
  unfold mode_for_tag. cbn [negb]. change RawNames with RAW_TAGS.
  destruct (find (fun raw_tag => identifier_eq n raw_tag) RAW_TAGS) as [t|] eqn:E.
  - apply find_some in E. destruct E as [Ht E]. apply identifier_eq_spec in E.
    destruct m as [u|]; cbn [mode_of]; split.
    + intros [Hu H]. f_equal. apply raw_unique; auto.
      eapply same_name_trans; [apply same_name_sym; apply E|exact H].
    + intros [= <-]. split; tauto.
    + intros H. exfalso. apply (H t); tauto.
    + discriminate.
  - pose proof (find_none _ _ E) as Hf.
    assert (Hno : forall t, In t RAW_TAGS -> ~ SameName n t).
    { intros t Ht H. specialize (Hf t Ht). simpl in Hf. rewrite <- not_true_iff_false in Hf.
      apply Hf. apply identifier_eq_spec. split; [now apply valid_ascii|]. split; auto. now apply raw_ascii. }
    destruct m as [u|]; cbn [mode_of]; split; try tauto; try discriminate.
    intros [Hu H]. exfalso. now apply (Hno u).
Qed.

(** ** Start tags *)

Lemma attrs_suffix s l r : Attrs s l r -> exists q, s = q ++ r.
Proof.
  induction 1 as [r|n w s l r _ _ _ _ [q ->]|n w1 w2 w3 v w4 s l r _ _ _ _ _ _ _ [q ->]].
  - now exists [].
  - exists (n ++ w ++ q). norm. reflexivity.
  - exists (n ++ w1 ++ 61 :: w2 ++ 34 :: w3 ++ v ++ 34 :: w4 ++ q). norm. reflexivity.
Qed.
Lemma attrs_cut s l r : Attrs s l r -> forall r0 rest, r = r0 ++ rest -> r0 <> [] ->
  exists s0, s = s0 ++ rest /\ s0 <> [] /\ Attrs s0 l r0.
Proof.
  induction 1 as [r|n w s l r Hn G He Ha IH|n w1 w2 w3 v w4 s l r Hn H1 H2 G3 Hv G4 Ha IH];
    intros r0 rest E Hne.
  - subst. exists r0. repeat split; auto. constructor.
  - destruct (IH r0 rest E Hne) as (s0 & -> & Hs0 & Ha0). exists (n ++ w ++ s0).
    split; [norm; reflexivity|]. split; [pose proof (proj1 (proj1 Hn)); now destruct n|].
    constructor; auto.
    + rewrite app_assoc, name_app in Hn; auto. now destruct w.
    + destruct G as [G G']. split; auto. now rewrite begins_app in G'.
    + now rewrite begins_app in He.
  - destruct (IH r0 rest E Hne) as (s0 & -> & Hs0 & Ha0).
    exists (n ++ w1 ++ 61 :: w2 ++ 34 :: w3 ++ v ++ 34 :: w4 ++ s0).
    split; [norm; reflexivity|]. split; [pose proof (proj1 (proj1 Hn)); now destruct n|].
    constructor; auto. destruct G4 as [G G']. split; auto. now rewrite begins_app in G'.
Qed.

Lemma tag_start_suffix s n a r : TagStart s n a r -> exists q, s = q ++ r.
Proof.
  intros (_ & _ & w & w' & s' & -> & _ & _ & _ & Ha). apply attrs_suffix in Ha. destruct Ha as [q ->].
  exists (60 :: w ++ n ++ w' ++ q). norm. reflexivity.
Qed.
(** a keyword start contains no '>' *)
Lemma doctype_prefix_no62 x kw : Blank x -> SameName kw (lit "doctype") ->
  ~ In 62 (lit "<!" ++ x ++ kw).
Proof.
  intros Hx Hk Hi. pose proof (letters_same _ _ Hk letters_lit_doctype) as [_ Hl].
  rewrite !in_app_iff in Hi. destruct Hi as [Hi|[Hi|Hi]].
  - simpl in Hi. lia.
  - eapply blank_in in Hi; eauto. now apply ns62.
  - apply Hl in Hi. lia.
Qed.
(** a start tag does not depend on what follows it *)
Lemma tag_start_cut s n a r0 rest : TagStart s n a (r0 ++ rest) -> In 62 r0 ->
  exists s0, s = s0 ++ rest /\ TagStart s0 n a r0.
Proof.
  intros (Hc & Hd & w & w' & s' & -> & Hw & Hn & G & Ha) H62.
  assert (Hne : r0 <> []) by (intros ->; destruct H62).
  destruct (attrs_cut _ _ _ Ha r0 rest eq_refl Hne) as (s0 & -> & Hs0 & Ha0).
  exists (60 :: w ++ n ++ w' ++ s0). split; [norm; reflexivity|].
  replace (60 :: w ++ n ++ w' ++ s0 ++ rest) with ((60 :: w ++ n ++ w' ++ s0) ++ rest) in Hc, Hd by (norm; reflexivity).
  split; [|split].
  - intros [x E]. apply Hc. exists (x ++ rest). rewrite E. now rewrite <- app_assoc.
  - intros (x & kw & y & E & Hx & Hk & Hy). apply Hd. exists x, kw, (y ++ rest).
    rewrite E. repeat (split; auto); [now rewrite <- !app_assoc|].
    destruct y as [|c y]; [|rewrite word_ends_app; [auto|discriminate]].
    exfalso. rewrite app_nil_r in E. apply (doctype_prefix_no62 x kw); auto. rewrite <- E.
    destruct (attrs_suffix _ _ _ Ha0) as [q ->]. right. rewrite !in_app_iff. auto.
  - exists w, w', s0. split; auto. split; auto. split; [|split]; auto.
    + rewrite app_assoc, name_app in Hn; auto. now destruct w'.
    + destruct G as [G G']. split; auto. now rewrite begins_app in G'.
Qed.
Lemma comment_start_ext s rest : In 62 s -> CommentStart (s ++ rest) -> CommentStart s.
Proof.
  intros H [r E]. apply app_eq_app in E. destruct E as [l [[E1 E2]|[E1 E2]]].
  - exists l. auto.
  - exfalso. assert (In 62 (lit "<!--")) by (rewrite E1, in_app_iff; auto).
    simpl in *. lia.
Qed.
Lemma doctype_start_ext s rest : In 62 s -> DoctypeStart (s ++ rest) -> DoctypeStart s.
Proof.
  intros H (w & kw & r & E & Hw & Hk & Hr). rewrite !app_assoc in E.
  apply app_eq_app in E. destruct E as [l [[E1 E2]|[E1 E2]]].
  - exists w, kw, l. split; [now rewrite <- !app_assoc in E1|]. repeat (split; auto).
    destruct l as [|c l]; [now left|]. subst r. now rewrite word_ends_app in Hr.
  - exfalso. apply (doctype_prefix_no62 w kw); auto. rewrite app_assoc, E1, in_app_iff. auto.
Qed.
