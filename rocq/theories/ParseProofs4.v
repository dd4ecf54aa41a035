(** Proofs about start tags, data, raw text and whole items. *)
From Coq Require Import String List NArith Arith Bool Lia.
Import ListNotations.
From Verif Require Import Text Event Input Parse SpecText SpecAttr SpecLocation SpecParse
  TextProofs AttrProofs AttrProofs2 LocationProofs ParseProofs ParseProofs2 ParseProofs3.
Local Open Scope N_scope.

(** rewrite with an equation about the loop up to the abbreviations [str], [char] *)
Ltac loop R :=
  match goal with
  | |- context[parse_attributes_loop ?f ?m ?i ?a] =>
      rewrite (R : parse_attributes_loop f m i a = _)
  end.

Ltac step R :=
  match goal with
  | |- context[try_parse_comment ?i] => rewrite (R : try_parse_comment i = _)
  | |- context[try_parse_doctype ?i] => rewrite (R : try_parse_doctype i = _)
  | |- context[try_parse_tag_close ?i] => rewrite (R : try_parse_tag_close i = _)
  | |- context[try_parse_tag_open ?i] => rewrite (R : try_parse_tag_open i = _)
  | |- context[try_parse_data ?i] => rewrite (R : try_parse_data i = _)
  end.

Definition tag_event (n : str) (a : attributes) (slash : bool) : event :=
  if is_void_tag n then VoidTag (name n) a
  else if slash then SelfClosedTag (name n) a else OpeningTag (name n) a.

Lemma open_none p s : ~ Begins (eq 60) s -> try_parse_tag_open (at_ p s) = None.
Proof. intros H. unfold try_parse_tag_open, c_lt. now rewrite take_char_no. Qed.

Lemma open_cases p r0 : let s := 60 :: r0 in
  ~ CommentStart s -> ~ DoctypeStart s ->
  ~ (exists w r, s = 60 :: w ++ 47 :: r /\ Blank w) ->
  (exists slice rest n a slash, s = slice ++ rest /\ Tag slice n a slash /\
     try_parse_tag_open (at_ p s)
     = parsed_ok p slice rest (tag_event n a slash) (mode_for_tag n slash))
  \/ (exists e, try_parse_tag_open (at_ p s) = Some (PErr e) /\
                forall limit st, Fault limit p s st e).
Proof.
  intros s Hc Hd Hcl. unfold try_parse_tag_open, c_lt, c_slash, c_gt.
  subst s. rewrite take_char_yes.
  destruct (gap_split r0) as (w & r & -> & G). rewrite skip_gap by auto.
  destruct (identifier_cases r) as [E|(n & r1 & -> & [Hn|(Hx & err & He)])].
  - rewrite take_identifier_none by auto. right. eexists. split; [reflexivity|].
    intros limit st. cbn [Fault]. split; auto. split; auto. exists w, r. repeat (split; auto); try apply G.
    + intros B. apply begins_eq in B. destruct B as [r' ->]. apply Hcl. exists w, r'. split; auto. apply G.
    + locate (60 :: w).
  - rewrite take_identifier_some by auto.
    destruct (gap_split r1) as (w' & s' & -> & G'). rewrite skip_gap by auto.
    change (id_str (name n)) with n.
    unfold parse_attributes.
    change (content (at_ ((((p ++ [60]) ++ w) ++ n) ++ w') s')) with s'.
    rewrite skip_none by apply G'.
    destruct (attrs_loop_cases (S (length s')) n ((((p ++ [60]) ++ w) ++ n) ++ w') s' [])
      as [(q & r & a & -> & Ha & Hr & Hr' & R)|(q & r & a & e & -> & Ha & Hf & R)].
    { lia. } { apply G'. }
    + loop R. clear R. rewrite skip_none by auto.
      assert (TS : TagStart (60 :: w ++ n ++ w' ++ q ++ r) n a r).
      { split; [exact Hc|]. split; [exact Hd|]. exists w, w', (q ++ r).
        repeat (split; auto); try apply G; try apply G'; try apply Hn. }
      destruct (begins_eq_dec 47 r) as [B|B].
      * apply begins_eq in B. destruct B as [r2 ->]. rewrite take_char_yes.
        destruct (gap_split r2) as (w2 & r3 & -> & G2). rewrite skip_gap by auto.
        destruct (begins_eq_dec 62 r3) as [B|B].
        -- apply begins_eq in B. destruct B as [rest ->]. rewrite take_char_yes. left.
           replace (47 :: w2 ++ 62 :: rest) with ((47 :: w2 ++ [62]) ++ rest) in TS at 2
             by (norm; reflexivity).
           destruct (tag_start_cut _ _ _ _ _ TS) as (slice & Es & TS').
           { right. rewrite in_app_iff. right. now left. }
           exists slice, rest, n, a, true. split; [exact Es|]. split.
           ++ eexists. split; [exact TS'|]. exists w2. split; auto. apply G2.
           ++ unfold parsed_ok, tag_event. cbn [in_loc at_ app]. do 4 f_equal.
              assert (X : slice = 60 :: w ++ n ++ w' ++ q ++ 47 :: w2 ++ [62]).
              { apply (app_inv_tail rest). etransitivity; [symmetry; exact Es|]. norm. reflexivity. }
              rewrite X. norm. reflexivity.
        -- rewrite take_char_no by auto. right. eexists. split; [reflexivity|].
           intros limit st. cbn [Fault]. exists a, r3. split; [locate (60 :: w ++ n ++ w' ++ q ++ 47 :: w2)|].
           split; auto. right. exists w2. auto.
      * rewrite take_char_no by auto. destruct (begins_eq_dec 62 r) as [B'|B'].
        -- apply begins_eq in B'. destruct B' as [rest ->]. rewrite take_char_yes. left.
           change (62 :: rest) with ([62] ++ rest) in TS at 2.
           destruct (tag_start_cut _ _ _ _ _ TS) as (slice & Es & TS').
           { now left. }
           exists slice, rest, n, a, false. split; [exact Es|]. split.
           ++ eexists. split; [exact TS'|]. reflexivity.
           ++ unfold parsed_ok, tag_event. cbn [in_loc at_ app]. do 4 f_equal.
              assert (X : slice = 60 :: w ++ n ++ w' ++ q ++ [62]).
              { apply (app_inv_tail rest). etransitivity; [symmetry; exact Es|]. norm. reflexivity. }
              rewrite X. norm. reflexivity.
        -- rewrite take_char_no by auto. right. eexists. split; [reflexivity|].
           intros limit st. cbn [Fault]. exists a, r. split; [locate (60 :: w ++ n ++ w' ++ q)|].
           split; auto.
    + loop R. right. exists e. split; [reflexivity|]. intros limit st.
      assert (TS : TagStart (60 :: w ++ n ++ w' ++ q ++ r) n a r).
      { split; [exact Hc|]. split; [exact Hd|]. exists w, w', (q ++ r).
        repeat (split; auto); try apply G; try apply G'; try apply Hn. }
      destruct e; try contradiction; cbn [AttrFault] in Hf; cbn [Fault].
      * destruct Hf as (x & r' & -> & Hx & He & ->). exists n, a, x, r'. repeat (split; auto).
        locate (60 :: w ++ n ++ w' ++ q).
      * destruct Hf as (-> & v & v' & r' & -> & Hv & Hna & Gv & Hb & ->).
        exists a, v, v', r'. repeat (split; auto); try apply Hna; try apply Gv.
        locate (60 :: w ++ n ++ w' ++ q ++ attribute_name ++ v ++ 61 :: v').
      * destruct Hf as (-> & v & v' & r' & -> & Hv & Hna & Gv & Hb & ->).
        exists a, v, v', r'. repeat (split; auto); try apply Hna; try apply Gv.
        locate (60 :: w ++ n ++ w' ++ q ++ attribute_name ++ v ++ 61 :: v').
  - rewrite (take_identifier_err _ _ _ err) by auto. right. eexists. split; [reflexivity|].
    intros limit st. cbn [Fault]. split; auto. split; auto. exists w, n, r1. repeat (split; auto); try apply G; try apply Hx.
    locate (60 :: w).
Qed.

Lemma open_complete p slice rest n a slash : Tag slice n a slash ->
  try_parse_tag_open (at_ p (slice ++ rest))
  = parsed_ok p slice rest (tag_event n a slash) (mode_for_tag n slash).
Proof.
  intros (r & (Hc & Hd & w & w' & s' & -> & Hw & Hn & G & Ha) & Hr).
  assert (Hne : r <> [] /\ WordEnds r /\ ~ Begins Space r).
  { destruct slash.
    - destruct Hr as (v & _ & ->). repeat split; try discriminate.
      + right. rewrite begins_cons. unfold Delimiter; simpl; tauto.
      + rewrite begins_cons. apply ns47.
    - subst r. repeat split; try discriminate.
      + right. rewrite begins_cons. unfold Delimiter; simpl; tauto.
      + rewrite begins_cons. apply ns62. }
  destruct Hne as (Hne & Hwe & Hns).
  assert (Hs' : s' <> []). { destruct (attrs_suffix _ _ _ Ha) as [q ->]. now destruct q. }
  unfold try_parse_tag_open, c_lt, c_slash, c_gt. norm.
  rewrite take_char_yes, skip_gap.
  2:{ split; auto. apply (name_no_space _ _ _ Hn). }
  replace (n ++ w' ++ s' ++ rest) with (n ++ (w' ++ s') ++ rest) by (norm; reflexivity).
  rewrite take_identifier_some. 2:{ rewrite name_app; auto. now destruct w'. }
  replace ((w' ++ s') ++ rest) with (w' ++ s' ++ rest) by (norm; reflexivity).
  assert (Bs : ~ Begins Space (s' ++ rest)) by (rewrite begins_app by auto; apply G).
  rewrite skip_gap by (split; [apply G|exact Bs]).
  change (id_str (name n)) with n. unfold parse_attributes.
  rewrite skip_none by auto.
  destruct (attrs_loop_complete _ _ _ Ha rest (S (length (content (at_ ((((p ++ [60]) ++ w) ++ n) ++ w') (s' ++ rest)))))
              n ((((p ++ [60]) ++ w) ++ n) ++ w') []) as (q & -> & R); auto.
  { cbn [content at_]. rewrite app_length. lia. }
  loop R. clear R. rewrite skip_none by (rewrite begins_app; auto).
  destruct slash.
  - destruct Hr as (v & Hv & ->). norm. rewrite take_char_yes, skip_gap by auto with gaps.
    rewrite take_char_yes. unfold parsed_ok, tag_event. cbn [in_loc at_ app]. do 4 f_equal. norm. reflexivity.
  - subst r. norm. rewrite take_char_no by (rewrite begins_cons; discriminate).
    rewrite take_char_yes. unfold parsed_ok, tag_event. cbn [in_loc at_ app]. do 4 f_equal. norm. reflexivity.
Qed.

Lemma tag_62 slice n a slash : Tag slice n a slash -> In 62 slice.
Proof.
  intros (r & TS & Hr). destruct (tag_start_suffix _ _ _ _ TS) as [q ->]. apply in_app_iff. right.
  destruct slash.
  - destruct Hr as (w & _ & ->). right. apply in_app_iff. right. now left.
  - subst. now left.
Qed.
Lemma tag_not_end slice rest n a slash : Tag slice n a slash ->
  ~ (exists w r, slice ++ rest = 60 :: w ++ 47 :: r /\ Blank w).
Proof.
  intros (r0 & (_ & _ & w & w' & s' & -> & Hw & Hn & G & Ha) & _) (v & r & E & Hv).
  norm_in E. injection E as E.
  assert (X : forall w v a b, Blank w -> Blank v -> ~ Begins Space a -> ~ Begins Space b ->
              w ++ a = v ++ b -> a = b).
  { clear. intros w v a b Hw Hv Ha Hb E.
    rewrite <- (trim_left_gap w a), <- (trim_left_gap v b); [now rewrite E|split; auto ..]. }
  apply X in E; auto.
  - destruct Hn as [(Hne & Hd & _) _]. destruct n as [|c n]; [congruence|]. injection E as -> E.
    apply (Hd 47); [now left|]. unfold Delimiter; simpl; tauto.
  - apply (name_no_space _ _ _ Hn).
  - rewrite begins_cons. apply ns47.
Qed.

(** ** Data and raw text *)

Lemma data_cases p s : s <> [] -> ~ Begins (eq 60) s ->
  exists slice rest, s = slice ++ rest /\ slice <> [] /\ ~ In 60 slice /\
    (rest = [] \/ Begins (eq 60) rest) /\
    try_parse_data (at_ p s) = parsed_ok p slice rest (Data (raw slice)) ModeData.
Proof.
  intros Hne Hb. unfold try_parse_data, c_lt.
  destruct (char_split 60 s) as [H|(a & b & -> & H)].
  - rewrite take_until_char_none by auto. rewrite take_all_at. exists s, []. rewrite app_nil_r.
    repeat split; auto. destruct s; [congruence|reflexivity].
  - rewrite take_until_char_some by auto. exists a, (60 :: b). split; auto.
    assert (a <> []). { intros ->. apply Hb. rewrite app_nil_l, begins_cons. auto. }
    repeat split; auto.
    + right. rewrite begins_cons. auto.
    + destruct a; [congruence|reflexivity].
Qed.
Lemma data_complete p slice rest : slice <> [] -> ~ In 60 slice ->
  (rest = [] \/ Begins (eq 60) rest) ->
  try_parse_data (at_ p (slice ++ rest)) = parsed_ok p slice rest (Data (raw slice)) ModeData.
Proof.
  intros Hne Hi Hr. unfold try_parse_data, c_lt. destruct Hr as [->|Hr].
  - rewrite app_nil_r. rewrite take_until_char_none by auto. rewrite take_all_at.
    destruct slice; [congruence|reflexivity].
  - apply begins_eq in Hr. destruct Hr as [r ->]. rewrite take_until_char_some by auto.
    destruct slice; [congruence|reflexivity].
Qed.
Lemma data_none p s : Begins (eq 60) s -> try_parse_data (at_ p s) = None.
Proof.
  intros H. apply begins_eq in H. destruct H as [r ->]. reflexivity.
Qed.

Lemma raw_end_spec t p s : is_ascii t = true ->
  (raw_data_end t (at_ p s) = true <-> EndsRaw t s).
Proof.
  intros Ht. unfold raw_data_end. split.
  - intros H.
    destruct (try_parse_tag_close (at_ p s)) as [[q|e| |]|] eqn:E; try discriminate.
    assert (C : exists w r, s = 60 :: w ++ 47 :: r /\ Blank w).
    { destruct (begins_eq_dec 60 s) as [B|B].
      - apply begins_eq in B. destruct B as [r ->].
        destruct (gap_split r) as (w & r' & -> & G).
        destruct (begins_eq_dec 47 r') as [B|B].
        + apply begins_eq in B. destruct B as [r'' ->]. exists w, r''. split; auto. apply G.
        + exfalso. unfold try_parse_tag_close, c_lt, c_slash in E.
          rewrite take_char_yes, skip_gap in E by auto. rewrite take_char_no in E by auto. discriminate.
      - exfalso. unfold try_parse_tag_close, c_lt in E. rewrite take_char_no in E by auto. discriminate. }
    destruct C as (w & r & -> & Hw).
    destruct (close_cases p w r Hw) as [(slice & rest & n & Es & He & R)|(e & R & _)].
    + pose proof (eq_trans (eq_sym E) R) as X. injection X as ->. cbn [p_event loc_value is_closing_tag_for_str] in H.
      exists slice, rest, n. split; auto. split; auto. unfold ident_is_eq in H.
      apply identifier_eq_spec in H. tauto.
    + pose proof (eq_trans (eq_sym E) R) as X. discriminate.
  - intros (slice & rest & n & -> & He & Hs). rewrite (close_complete _ _ _ _ He). cbn.
    unfold ident_is_eq. apply identifier_eq_spec. change (id_str (name n)) with n.
    split; [|split]; auto. now rewrite (same_name_ascii _ _ Hs).
Qed.
Lemma ends_raw_60 t s : EndsRaw t s -> Begins (eq 60) s.
Proof.
  intros (slice & rest & n & -> & (w & w' & w'' & -> & _) & _). norm. rewrite begins_cons. auto.
Qed.

Lemma until_end_loop p t done s : is_ascii t = true ->
  (exists a b, s = a ++ b /\ EndsRaw t b /\
     (forall x y, a = x ++ y -> y <> [] -> ~ EndsRaw t (y ++ b)) /\
     take_until_end_loop (at_ p (done ++ s)) (raw_data_end t) (match_indices 60 s (length done))
     = Some (done ++ a, at_ (p ++ done ++ a) b)) \/
  ((forall x y, s = x ++ y -> ~ EndsRaw t y) /\
   take_until_end_loop (at_ p (done ++ s)) (raw_data_end t) (match_indices 60 s (length done)) = None).
Proof.
  intros Ht. revert done; induction s as [|c s IH]; intros done.
  - right. split; [|reflexivity]. intros x y E H. apply ends_raw_60 in H.
    symmetry in E. apply app_eq_nil in E. destruct E as [_ ->]. now apply begins_nil in H.
  - cbn [match_indices].
    assert (E : done ++ c :: s = (done ++ [c]) ++ s) by (norm; reflexivity).
    assert (El : S (length done) = length (done ++ [c])) by (rewrite app_length; simpl; lia).
    assert (Step : ~ EndsRaw t (c :: s) ->
      (exists a b, c :: s = a ++ b /\ EndsRaw t b /\
         (forall x y, a = x ++ y -> y <> [] -> ~ EndsRaw t (y ++ b)) /\
         take_until_end_loop (at_ p (done ++ c :: s)) (raw_data_end t) (match_indices 60 s (S (length done)))
         = Some (done ++ a, at_ (p ++ done ++ a) b)) \/
      ((forall x y, c :: s = x ++ y -> ~ EndsRaw t y) /\
       take_until_end_loop (at_ p (done ++ c :: s)) (raw_data_end t) (match_indices 60 s (S (length done))) = None)).
    { intros Hno. rewrite El, E. destruct (IH (done ++ [c])) as [(a & b & -> & Hb & Hf & R)|[Hf R]].
      - left. exists (c :: a), b. split; auto. split; auto. split.
        + intros [|d x] y Ex Hy; simpl in Ex.
          * subst y. exact Hno.
          * injection Ex as <- Ex. eapply Hf; eauto.
        + rewrite R. norm. reflexivity.
      - right. split; auto. intros [|d x] y Ex; simpl in Ex.
        + now subst y.
        + injection Ex as <- Ex. eapply Hf; eauto. }
    destruct (N.eqb_spec c 60) as [->|Hc].
    + cbn [take_until_end_loop]. rewrite advanced_at, consumed_at.
      match goal with |- context[if ?b then _ else _] => destruct b eqn:Er end.
      * apply raw_end_spec in Er; auto. left. exists [], (60 :: s). repeat split; auto.
        -- intros x y Ex Hy. symmetry in Ex. apply app_eq_nil in Ex. tauto.
        -- rewrite app_nil_r. reflexivity.
      * apply Step. intros X. apply (raw_end_spec t (p ++ done)) in X; auto. congruence.
    + apply Step. intros X. apply ends_raw_60 in X. rewrite begins_cons in X. auto.
Qed.

Lemma raw_cases p t s : is_ascii t = true ->
  exists slice rest, s = slice ++ rest /\ Item (Some t) slice rest (RawData (raw slice)) None /\
    parse_raw_data (at_ p s) t
    = POk (Parsed (Located (loc_of p) (RawData (raw slice))) ModeData (at_ (p ++ slice) rest)).
Proof.
  intros Ht. unfold parse_raw_data, take_until_end_char, c_lt. cbn [content at_].
  fold (at_ p s). destruct (until_end_loop p t [] s Ht) as [(a & b & -> & Hb & Hf & R)|[Hf R]];
    cbn [app length] in R; rewrite R.
  - exists a, b. split; auto. split; auto. constructor; auto.
  - rewrite take_all_at. exists s, []. rewrite app_nil_r. split; auto. split; auto. constructor; auto.
    intros x y E _. rewrite app_nil_r. eapply Hf; eauto.
Qed.
(** the end of raw text is determined *)
Lemma raw_det t a b a' b' : a ++ b = a' ++ b' ->
  (b = [] \/ EndsRaw t b) -> (forall p q, a = p ++ q -> q <> [] -> ~ EndsRaw t (q ++ b)) ->
  (b' = [] \/ EndsRaw t b') -> (forall p q, a' = p ++ q -> q <> [] -> ~ EndsRaw t (q ++ b')) ->
  a = a' /\ b = b'.
Proof.
  assert (X : forall a b a' b' l, (b = [] \/ EndsRaw t b) ->
            (forall p q, a' = p ++ q -> q <> [] -> ~ EndsRaw t (q ++ b')) ->
            a' = a ++ l -> b = l ++ b' -> a = a' /\ b = b').
  { intros a0 b0 a1 b1 l H1 H2 -> ->. destruct l as [|c l].
    - now rewrite app_nil_r.
    - exfalso. destruct H1 as [H1|H1]; [discriminate|]. eapply H2; eauto; discriminate. }
  intros E H1 H2 H3 H4. apply app_eq_app in E. destruct E as [l [[E1 E2]|[E1 E2]]].
  - destruct (X a' b' a b l); auto.
  - destruct (X a b a' b' l); auto.
Qed.

(** ** Items *)

Definition item_ok (p slice rest : str) (ev : event) (m : option str) : presult parsed :=
  POk (Parsed (Located (loc_of p) ev) (mode_of m) (at_ (p ++ slice) rest)).

Lemma closing_start_dec s :
  (exists w r, s = 60 :: w ++ 47 :: r /\ Blank w) \/ ~ (exists w r, s = 60 :: w ++ 47 :: r /\ Blank w).
Proof.
  destruct (begins_eq_dec 60 s) as [B|B].
  - apply begins_eq in B. destruct B as [r ->].
    destruct (gap_split r) as (w & r' & -> & G).
    destruct (begins_eq_dec 47 r') as [B|B].
    + apply begins_eq in B. destruct B as [r'' ->]. left. exists w, r''. split; auto. apply G.
    + right. intros (v & q & E & Hv). injection E as E. apply B.
      assert (X : r' = 47 :: q).
      { rewrite <- (trim_left_gap w r'), <- (trim_left_gap v (47 :: q)); auto with gaps. now rewrite E. }
      rewrite X, begins_cons. auto.
  - right. intros (w & r & -> & _). apply B. rewrite begins_cons. auto.
Qed.
Lemma comment_start_dec s : CommentStart s \/ ~ CommentStart s.
Proof.
  destruct (starts_with (lit "<!--") s) eqn:E.
  - left. now apply starts_with_iff in E.
  - right. intros H. apply starts_with_iff in H. congruence.
Qed.
Lemma doctype_start_dec s : DoctypeStart s \/ ~ DoctypeStart s.
Proof.
  destruct (starts_with (lit "<!") s) eqn:E.
  - apply starts_with_iff in E. destruct E as [r ->].
    destruct (gap_split r) as (w & r' & -> & G).
    assert (U : forall w' kw t, lit "<!" ++ w ++ r' = lit "<!" ++ w' ++ kw ++ t -> Blank w' ->
              SameName kw (lit "doctype") -> WordEnds t -> r' = kw ++ t).
    { intros w' kw t Ex Hw' Hk Ht. apply app_inv_head in Ex.
      rewrite <- (trim_left_gap w r'), <- (trim_left_gap w' (kw ++ t)); auto; [now rewrite Ex|].
      split; auto. eapply name_no_space. eapply same_doctype; eauto. }
    destruct (word_split r') as [H|(x & t & -> & H)].
    + right. intros (w' & kw & t & Ex & Hw' & Hk & Ht). apply U in Ex; auto.
      pose proof (same_doctype _ _ Hk Ht) as [(Hne & Hd & _) _].
      destruct H as [->|(c & t' & -> & Hc)]; [now destruct kw|].
      destruct kw as [|d kw]; [congruence|]. injection Ex as <- _. apply (Hd c); auto. now left.
    + destruct (eq_ignore_ascii_case x (lit "doctype")) eqn:Ek.
      * apply eq_ignore_spec in Ek. left. exists w, x, t. repeat split; auto; try apply G. apply H.
      * right. intros (w' & kw & t' & Ex & Hw' & Hk & Ht). apply U in Ex; auto.
        pose proof (same_doctype _ _ Hk Ht) as [Hw2 _].
        pose proof (take_word_some [] x t H) as T1. pose proof (take_word_some [] kw t' Hw2) as T2.
        rewrite Ex, T2 in T1. injection T1 as -> _. apply eq_ignore_spec in Hk. congruence.
  - right. intros (w & kw & r & -> & _).
    assert (starts_with (lit "<!") (lit "<!" ++ w ++ kw ++ r) = true) by (apply starts_with_iff; eauto).
    congruence.
Qed.

Lemma tag_event_item slice rest n a slash : Tag slice n a slash ->
  exists m, Item None slice rest (tag_event n a slash) m /\ mode_for_tag n slash = mode_of m.
Proof.
  intros T.
  assert (Hv : ValidName n). { destruct T as (r & (_ & _ & w & w' & s' & _ & _ & Hn & _) & _). apply Hn. }
  unfold tag_event. destruct (is_void_tag n) eqn:Ev.
  - apply is_void_spec in Ev; auto. exists None. split.
    + constructor; [now apply Sp_void with slash|reflexivity|exact I].
    + destruct slash; [reflexivity|]. apply (mode_for_open n a None Hv). intros t Ht.
      now apply void_not_raw.
  - apply is_void_false in Ev; auto. destruct slash.
    + exists None. split; [|reflexivity]. constructor; [now apply Sp_self|reflexivity|exact I].
    + exists (match mode_for_tag n false with ModeData => None | ModeRawData t => Some t end).
      assert (X : mode_for_tag n false = mode_of (match mode_for_tag n false with ModeData => None | ModeRawData t => Some t end)).
      { destruct (mode_for_tag n false); reflexivity. }
      split; [|exact X]. constructor; [now apply Sp_open|now apply mode_for_open|exact I].
Qed.

Lemma parse_data_cases p s : s <> [] ->
  (exists slice rest ev m, s = slice ++ rest /\ Item None slice rest ev m /\
     parse_data_mode (at_ p s) = item_ok p slice rest ev m) \/
  (exists e, parse_data_mode (at_ p s) = PErr e /\ forall limit st, Fault limit p s st e).
Proof.
  intros Hne. unfold parse_data_mode.
  destruct (comment_start_dec s) as [[r ->]|Hc].
  { destruct (comment_cases p r) as [(slice & rest & c & Es & Hs & R)|(e & R & H)]; step R.
    - left. exists slice, rest, (Comment (raw c)), None. split; auto. split; auto.
      constructor; auto. reflexivity.
    - right. exists e. auto. }
  rewrite comment_none by auto. cbn [or_else].
  destruct (doctype_start_dec s) as [(w & kw & r & -> & Hw & Hk & Hr)|Hd].
  { destruct (doctype_cases p w kw r Hw Hk Hr) as [(slice & rest & c & Es & Hs & R)|(e & R & H)]; step R.
    - left. exists slice, rest, (Doctype (raw c)), None. split; auto. split; auto.
      constructor; auto. reflexivity.
    - right. exists e. auto. }
  rewrite doctype_none by auto. cbn [or_else]. unfold try_parse_tag.
  destruct (closing_start_dec s) as [(w & r & -> & Hw)|Hcl].
  { destruct (close_cases p w r Hw) as [(slice & rest & n & Es & Hs & R)|(e & R & H)]; step R.
    - left. exists slice, rest, (ClosingTag (name n)), None. split; auto. split; auto.
      constructor; auto. now constructor. reflexivity.
    - right. exists e. auto. }
  rewrite close_none by auto. cbn [or_else].
  destruct (begins_eq_dec 60 s) as [B|B].
  - apply begins_eq in B. destruct B as [r ->].
    destruct (open_cases p r Hc Hd Hcl) as [(slice & rest & n & a & slash & Es & T & R)|(e & R & H)]; step R.
    + left. destruct (tag_event_item slice rest n a slash T) as (m & Hi & Hm).
      exists slice, rest, (tag_event n a slash), m. split; auto. split; auto.
      unfold item_ok. rewrite <- Hm. reflexivity.
    + right. exists e. auto.
  - rewrite open_none by auto. cbn [or_else].
    destruct (data_cases p s Hne B) as (slice & rest & -> & Hs & Hi & Hr & R). step R. left.
    exists slice, rest, (Data (raw slice)), None. split; auto. split; auto.
    constructor; auto. now constructor. reflexivity.
Qed.

Lemma end_tag_start slice rest n : EndTag slice n ->
  exists w r, slice ++ rest = 60 :: w ++ 47 :: r /\ Blank w.
Proof.
  intros (w & w' & w'' & -> & Hw & _). exists w, (w' ++ n ++ w'' ++ [62] ++ rest). split; auto.
  norm. reflexivity.
Qed.
Lemma closing_not_bang s w r : s = 60 :: w ++ 47 :: r -> Blank w -> ~ CommentStart s /\ ~ DoctypeStart s.
Proof.
  intros -> Hw.
  assert (X : forall r', w ++ 47 :: r <> 33 :: r').
  { intros r' E. destruct w as [|c w]; [discriminate|]. injection E as -> _.
    inversion Hw; subst. now apply ns33. }
  split.
  - intros [r' E]. injection E as E. now apply X in E.
  - intros (v & kw & r' & E & _). injection E as E. now apply X in E.
Qed.

Lemma parse_data_complete p slice rest ev m : Item None slice rest ev m ->
  parse_data_mode (at_ p (slice ++ rest)) = item_ok p slice rest ev m.
Proof.
  intros H. inversion H as [? ? ? ? Hs Ha Hl|]; subst; clear H. unfold parse_data_mode.
  assert (TagCase : forall n a slash, Tag slice n a slash -> ev = tag_event n a slash ->
            mode_for_tag n slash = mode_of m ->
            match or_else (try_parse_comment (at_ p (slice ++ rest))) (fun _ =>
                  or_else (try_parse_doctype (at_ p (slice ++ rest))) (fun _ =>
                  or_else (try_parse_tag (at_ p (slice ++ rest))) (fun _ =>
                  try_parse_data (at_ p (slice ++ rest))))) with
            | Some r => r
            | None => PErr (UnexpectedInput (in_loc (at_ p (slice ++ rest))))
            end = item_ok p slice rest ev m).
  { intros n a slash T -> Hm. pose proof (tag_62 _ _ _ _ T) as H62.
    destruct (proj1 (conj T T)) as (r & (Hc & Hd & _) & _).
    rewrite comment_none. 2:{ intros C. apply Hc. eapply comment_start_ext; eauto. }
    rewrite doctype_none. 2:{ intros C. apply Hd. eapply doctype_start_ext; eauto. }
    cbn [or_else]. unfold try_parse_tag. rewrite close_none by (eapply tag_not_end; eauto).
    cbn [or_else]. rewrite (open_complete _ _ _ _ _ _ T). cbn. unfold item_ok. now rewrite <- Hm. }
  assert (HvT : forall n a slash, Tag slice n a slash -> ValidName n).
  { intros n a slash (r & (_ & _ & w & w' & s' & _ & _ & Hn & _) & _). apply Hn. }
  destruct Hs as [s Hne Hi|c Hc|w kw w' c w'' Hw Hk Hw' He Hh Hw''|s n He|s n a slash T Hv|s n a T Hv|s n a T Hv].
  - cbn in Ha. subst m. assert (B : ~ Begins (eq 60) (s ++ rest)).
    { rewrite begins_app by auto. intros B. apply begins_eq in B. destruct B as [r ->]. apply Hi. now left. }
    rewrite comment_none. 2:{ intros [r E]. apply B. exists 60, (lit "!--" ++ r). auto. }
    rewrite doctype_none. 2:{ intros (w & kw & r & E & _). apply B.
      exists 60, (lit "!" ++ w ++ kw ++ r). auto. }
    cbn [or_else]. unfold try_parse_tag. rewrite close_none.
    2:{ intros (w & r & E & _). apply B. exists 60, (w ++ 47 :: r). auto. }
    cbn [or_else]. rewrite open_none by auto. cbn [or_else]. now rewrite data_complete.
  - cbn in Ha. subst m. now rewrite comment_complete.
  - cbn in Ha. subst m. rewrite comment_none.
    2:{ intros [r E]. rewrite <- !app_assoc in E. change (lit "<!--") with (lit "<!" ++ [45; 45]) in E.
        rewrite <- !app_assoc in E. apply app_inv_head in E.
        destruct w as [|x w]; simpl in E.
        - pose proof (letters_same _ _ Hk letters_lit_doctype) as [Hne Hlk].
          destruct kw as [|x kw]; [congruence|]. injection E as -> _.
          specialize (Hlk 45 (or_introl eq_refl)). lia.
        - injection E as -> _. inversion Hw as [|? ? X]; subst. unfold Space in X. simpl in X. lia. }
    cbn [or_else]. now rewrite doctype_complete.
  - cbn in Ha. subst m. destruct (end_tag_start s rest n He) as (w & r & E & Hw).
    destruct (closing_not_bang _ _ _ E Hw) as [Hc Hd].
    rewrite comment_none, doctype_none by auto. cbn [or_else]. unfold try_parse_tag.
    now rewrite (close_complete _ _ _ _ He).
  - cbn in Ha. subst m. apply TagCase with n a slash; auto.
    + unfold tag_event. now rewrite (proj2 (is_void_spec n (HvT _ _ _ T)) Hv).
    + destruct slash; [reflexivity|]. apply (mode_for_open n a None (HvT _ _ _ T)). intros t Ht.
      now apply void_not_raw.
  - cbn in Ha. subst m. apply TagCase with n a true; auto.
    unfold tag_event. now rewrite (proj2 (is_void_false n (HvT _ _ _ T)) Hv).
  - apply TagCase with n a false; auto.
    + unfold tag_event. now rewrite (proj2 (is_void_false n (HvT _ _ _ T)) Hv).
    + now apply (mode_for_open n a m (HvT _ _ _ T)).
Qed.
