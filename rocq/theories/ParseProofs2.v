(** Proofs that the parser for single items does what [Spells] and [Fault] say. *)
From Coq Require Import String List NArith Arith Bool Lia.
Import ListNotations.
From Verif Require Import Text Event Input Parse SpecText SpecAttr SpecLocation SpecParse
  TextProofs AttrProofs AttrProofs2 LocationProofs ParseProofs.
Local Open Scope N_scope.

Ltac norm := repeat first [rewrite <- app_assoc | rewrite <- app_comm_cons | rewrite app_nil_l].
Ltac norm_in H := repeat first [rewrite <- app_assoc in H | rewrite <- app_comm_cons in H | rewrite app_nil_l in H].

Lemma located_at pre q r s l : s = q ++ r -> l = loc_of (pre ++ q) -> LocatedAt pre s r l.
Proof. intros -> ->. exists q. split; auto. apply at_prefix_loc_of. Qed.
Ltac locate q := apply (located_at _ q); [norm; reflexivity|norm; reflexivity].

Definition parsed_ok (p slice rest : str) (ev : event) (m : mode) : option (presult parsed) :=
  Some (POk (Parsed (Located (loc_of p) ev) m (at_ (p ++ slice) rest))).

(** ** End tags *)

Lemma close_none p s : ~ (exists w r, s = 60 :: w ++ 47 :: r /\ Blank w) ->
  try_parse_tag_close (at_ p s) = None.
Proof.
  intros H. unfold try_parse_tag_close.
  destruct (begins_eq_dec 60 s) as [B|B].
  - apply begins_eq in B. destruct B as [r ->]. unfold c_lt. rewrite take_char_yes.
    destruct (gap_split r) as (w & r' & -> & G). rewrite skip_gap by auto.
    unfold c_slash. rewrite take_char_no; auto.
    intros B. apply begins_eq in B. destruct B as [r'' ->]. apply H. exists w, r''.
    split; auto. apply G.
  - unfold c_lt. now rewrite take_char_no.
Qed.

Lemma close_cases p w r : Blank w ->
  let s := 60 :: w ++ 47 :: r in
  (exists slice rest n, s = slice ++ rest /\ EndTag slice n /\
     try_parse_tag_close (at_ p s) = parsed_ok p slice rest (ClosingTag (name n)) ModeData)
  \/ (exists e, try_parse_tag_close (at_ p s) = Some (PErr e) /\
                forall limit st, Fault limit p s st e).
Proof.
  intros Hw s. unfold try_parse_tag_close, s. unfold c_lt, c_slash, c_gt.
  rewrite take_char_yes, skip_gap by auto with gaps. rewrite take_char_yes.
  destruct (gap_split r) as (w' & r1 & -> & G'). rewrite skip_gap by auto.
  destruct (identifier_cases r1) as [E|(x & r2 & -> & [Hn|(Hx & err & He)])].
  - right. rewrite take_identifier_none by auto. eexists. split; [reflexivity|].
    intros limit st. exists w, w', r1. repeat (split; auto).
    cbn [in_loc at_]. locate (60 :: w ++ 47 :: w').
  - destruct (gap_split r2) as (w'' & r3 & -> & G''). rewrite take_identifier_some by auto.
    rewrite skip_gap by auto. destruct (begins_eq_dec 62 r3) as [B|B].
    + apply begins_eq in B. destruct B as [r4 ->]. rewrite take_char_yes. left.
      exists (60 :: w ++ 47 :: w' ++ x ++ w'' ++ [62]), r4, x.
      split; [|split].
      * norm. reflexivity.
      * exists w, w', w''. split; [norm; reflexivity|]. split; auto. split; [apply G'|].
        split; [apply G''|]. now apply name_snoc in Hn.
      * unfold parsed_ok. cbn [in_loc at_]. do 4 f_equal. norm. reflexivity.
    + rewrite take_char_no by auto. right. eexists. split; [reflexivity|].
      intros limit st. exists w, w', w'', r3. repeat (split; auto); try apply G''; try apply G'.
      cbn [in_loc at_]. locate (60 :: w ++ 47 :: w' ++ x ++ w'').
  - rewrite (take_identifier_err _ _ _ err) by auto. right. eexists. split; [reflexivity|].
    intros limit st. exists w, w', x, r2. repeat (split; auto).
    cbn [in_loc at_]. locate (60 :: w ++ 47 :: w').
Qed.

Lemma close_complete p slice rest n : EndTag slice n ->
  try_parse_tag_close (at_ p (slice ++ rest))
  = parsed_ok p slice rest (ClosingTag (name n)) ModeData.
Proof.
  intros (w & w' & w'' & -> & Hw & Hw' & Hw'' & Hn).
  unfold try_parse_tag_close, c_lt, c_slash, c_gt. norm.
  rewrite take_char_yes, skip_gap by auto with gaps. rewrite take_char_yes.
  rewrite skip_gap.
  2:{ split; auto. now apply (name_no_space _ _ _ Hn). }
  rewrite take_identifier_some.
  2:{ now apply name_snoc. }
  rewrite skip_gap by auto with gaps. rewrite take_char_yes.
  unfold parsed_ok. cbn [in_loc at_]. do 4 f_equal. norm. reflexivity.
Qed.

(** ** Comments *)

Lemma comment_none p s : ~ CommentStart s -> try_parse_comment (at_ p s) = None.
Proof. intros H. unfold try_parse_comment. now rewrite take_str_no. Qed.

(** where the first end marker of a comment is *)
Lemma comment_first c rest :
  (forall p q, c ++ lit "-->" = p ++ lit "-->" ++ q -> q = []) <->
  (forall p q, c ++ lit "-->" ++ rest = p ++ lit "-->" ++ q -> (length c <= length p)%nat).
Proof.
  split; intros H p q E.
  - destruct (le_lt_dec (length c) (length p)) as [L|L]; auto. exfalso.
    assert (E3 : c ++ lit "-->" = p ++ lit "-->" ++ firstn (length c - length p) q).
    { apply (f_equal (firstn (length c + 3))) in E.
      rewrite app_assoc, firstn_app in E. rewrite app_length in E. change (length (lit "-->")) with 3%nat in E.
      replace (length c + 3 - (length c + 3))%nat with 0%nat in E by lia.
      rewrite firstn_O, app_nil_r in E.
      rewrite (firstn_all2 (c ++ lit "-->")) in E.
      2:{ rewrite app_length. change (length (lit "-->")) with 3%nat. lia. }
      rewrite E. rewrite !firstn_app. rewrite (firstn_all2 p) by lia.
      rewrite (firstn_all2 (lit "-->")).
      2:{ change (length (lit "-->")) with 3%nat. lia. }
      change (length (lit "-->")) with 3%nat. do 3 f_equal. lia. }
    specialize (H _ _ E3). rewrite H, app_nil_r in E3. apply app_inv_tail in E3. subst. lia.
  - rewrite app_assoc in H. specialize (H p (q ++ rest)). rewrite E in H.
    rewrite <- !app_assoc in H. specialize (H eq_refl).
    apply (f_equal (@length _)) in E. rewrite !app_length in E.
    destruct q; auto. simpl in E. lia.
Qed.

Lemma comment_cases p r : let s := lit "<!--" ++ r in
  (exists slice rest c, s = slice ++ rest /\ Spells slice (Comment (raw c)) /\
     try_parse_comment (at_ p s) = parsed_ok p slice rest (Comment (raw c)) ModeData)
  \/ (exists e, try_parse_comment (at_ p s) = Some (PErr e) /\
                forall limit st, Fault limit p s st e).
Proof.
  intros s. unfold try_parse_comment, s. rewrite take_str_yes.
  destruct (str_split (lit "-->") r) as [H|(c & rest & -> & H)].
  - rewrite take_until_str_none by auto. right. eexists. split; [reflexivity|].
    intros limit st. split; [apply at_prefix_loc_of|]. eauto.
  - rewrite take_until_str_some by auto. rewrite take_str_yes. left.
    exists (lit "<!--" ++ c ++ lit "-->"), rest, c. split; [now rewrite <- !app_assoc|]. split.
    + constructor. now apply (comment_first c rest).
    + unfold parsed_ok. cbn [in_loc at_]. do 4 f_equal. now rewrite <- !app_assoc.
Qed.
Lemma comment_complete p c rest :
  (forall p q, c ++ lit "-->" = p ++ lit "-->" ++ q -> q = []) ->
  try_parse_comment (at_ p ((lit "<!--" ++ c ++ lit "-->") ++ rest))
  = parsed_ok p (lit "<!--" ++ c ++ lit "-->") rest (Comment (raw c)) ModeData.
Proof.
  intros H. unfold try_parse_comment. rewrite <- !app_assoc. rewrite take_str_yes.
  rewrite take_until_str_some by now apply (comment_first c rest). rewrite take_str_yes.
  unfold parsed_ok. cbn [in_loc at_]. do 4 f_equal. now rewrite <- !app_assoc.
Qed.

(** ** Doctypes *)

Lemma doctype_valid : ValidName (lit "doctype").
Proof. apply validate_iff. vm_compute. eauto. Qed.
Lemma html_valid : ValidName (lit "html").
Proof. apply validate_iff. vm_compute. eauto. Qed.
(** names that differ in case only from a name made of letters *)
Definition Letters (s : str) : Prop := s <> [] /\ forall c, In c s -> 97 <= c <= 122.
Lemma letters_same a b : SameName a b -> Letters b ->
  a <> [] /\ forall c, In c a -> 65 <= c <= 90 \/ 97 <= c <= 122.
Proof.
  intros H [Hne Hb]. split; [destruct H; congruence|]. clear Hne.
  induction H as [|x y a b Hxy _ IH]; intros c Hc; [destruct Hc|].
  destruct Hc as [<-|Hc].
  - specialize (Hb y (or_introl eq_refl)). unfold SameLetter in Hxy.
    destruct Hxy as [->|[[H1 H2]|[H1 H2]]]; lia.
  - apply IH; auto. intros z Hz. apply Hb. now right.
Qed.
Lemma letters_name a : (a <> [] /\ forall c, In c a -> 65 <= c <= 90 \/ 97 <= c <= 122) ->
  ValidName a /\ forall c, In c a -> ~ Delimiter c.
Proof.
  intros [Hne H]. split; [split; auto|]; intros c Hc; specialize (H c Hc).
  - unfold AsciiSpace, ForbiddenChar. simpl. lia.
  - unfold Delimiter. simpl. lia.
Qed.
Lemma letters_lit_doctype : Letters (lit "doctype").
Proof. split; [discriminate|]. intros c. simpl. lia. Qed.
Lemma letters_lit_html : Letters (lit "html").
Proof. split; [discriminate|]. intros c. simpl. lia. Qed.
Lemma same_doctype kw r : SameName kw (lit "doctype") -> WordEnds r -> Name kw r.
Proof.
  intros H Hr. pose proof (letters_same _ _ H letters_lit_doctype) as L.
  pose proof (proj1 L) as Hne. apply letters_name in L. split; [|tauto]. repeat split; try tauto.
Qed.

Lemma exact_yes p kw r : SameName kw (lit "doctype") -> WordEnds r ->
  try_take_exact_identifier (at_ p (kw ++ r)) (lit "doctype") = Some (name kw, at_ (p ++ kw) r).
Proof.
  intros H Hr. pose proof (same_doctype _ _ H Hr) as [Hw Hv].
  unfold try_take_exact_identifier. rewrite take_word_some by auto.
  rewrite (proj2 (ident_from_str_iff kw (name kw)) (conj Hv eq_refl)).
  replace (identifier_eq (id_str (name kw)) (lit "doctype")) with true; auto.
  symmetry. apply identifier_eq_spec. repeat split; auto. now apply valid_ascii.
Qed.
Lemma exact_no p s :
  ~ (exists kw r, s = kw ++ r /\ SameName kw (lit "doctype") /\ WordEnds r) ->
  try_take_exact_identifier (at_ p s) (lit "doctype") = None.
Proof.
  intros H. unfold try_take_exact_identifier.
  destruct (identifier_cases s) as [E|(x & r & -> & [Hn|(Hx & err & He)])].
  - now rewrite take_word_none.
  - destruct Hn as [Hw Hv]. rewrite take_word_some by auto.
    rewrite (proj2 (ident_from_str_iff x (name x)) (conj Hv eq_refl)).
    destruct (identifier_eq (id_str (name x)) (lit "doctype")) eqn:E; auto.
    apply identifier_eq_spec in E. exfalso. apply H. exists x, r. repeat split; try tauto. apply Hw.
  - rewrite take_word_some by auto. now rewrite (proj2 (ident_from_str_err x err) He).
Qed.

Lemma doctype_none p s : ~ DoctypeStart s -> try_parse_doctype (at_ p s) = None.
Proof.
  intros H. unfold try_parse_doctype.
  destruct (starts_with (lit "<!") s) eqn:E.
  - apply starts_with_iff in E. destruct E as [r ->]. rewrite take_str_yes.
    destruct (gap_split r) as (w & r' & -> & G). rewrite skip_gap by auto.
    rewrite exact_no; auto. intros (kw & r'' & -> & Hk & Hr). apply H.
    exists w, kw, r''. repeat split; auto. apply G.
  - rewrite take_str_no; auto. intros X. apply starts_with_iff in X. congruence.
Qed.

Lemma trim_split s : ~ Begins Space s -> exists d w, s = d ++ w /\ Blank w /\
  ~ Begins Space d /\ ~ Begins Space (rev d) /\ trim s = d.
Proof.
  intros H. destruct (gap_split (rev s)) as (w & r & E & [Hw Hr]).
  exists (rev r), (rev w).
  assert (Es : s = rev r ++ rev w). { rewrite <- (rev_involutive s), E. apply rev_app_distr. }
  split; auto. split; [now apply Forall_rev|]. split; [|split].
  - destruct (rev r) as [|c d]; [apply begins_nil|]. rewrite Es in H. simpl in H.
    now rewrite begins_cons in *.
  - now rewrite rev_involutive.
  - unfold trim. change s with ([] ++ s). rewrite (trim_left_gap [] s).
    2:{ split; auto. constructor. }
    rewrite E, trim_left_gap; auto. now split.
Qed.

Lemma doctype_cases p w kw r : Blank w -> SameName kw (lit "doctype") -> WordEnds r ->
  let s := lit "<!" ++ w ++ kw ++ r in
  (exists slice rest c, s = slice ++ rest /\ Spells slice (Doctype (raw c)) /\
     try_parse_doctype (at_ p s) = parsed_ok p slice rest (Doctype (raw c)) ModeData)
  \/ (exists e, try_parse_doctype (at_ p s) = Some (PErr e) /\
                forall limit st, Fault limit p s st e).
Proof.
  intros Hw Hk Hr s. unfold try_parse_doctype, s, c_gt. rewrite take_str_yes.
  pose proof (same_doctype _ _ Hk Hr) as Hname.
  rewrite skip_gap. 2:{ split; auto. now apply (name_no_space _ _ _ Hname). }
  rewrite exact_yes by auto.
  destruct (gap_split r) as (w' & r1 & -> & G). rewrite skip_gap by auto.
  destruct (char_split 62 r1) as [H|(a & b & -> & H)].
  - rewrite take_until_char_none by auto. right. eexists. split; [reflexivity|].
    intros limit st. split; [apply at_prefix_loc_of|]. exists w, kw, (w' ++ r1).
    repeat (split; auto). intros Hi. apply in_app_or in Hi. destruct Hi as [Hi|Hi]; auto.
    eapply (blank_in w') in Hi; [|apply G]. now apply ns62.
  - rewrite take_until_char_some by auto. rewrite take_char_yes.
    assert (Ha : ~ Begins Space a).
    { destruct a; [apply begins_nil|]. destruct G as [_ G]. simpl in G. now rewrite begins_cons in *. }
    destruct (trim_split a Ha) as (d & w'' & -> & Hw'' & Hd & Hd' & ->).
    assert (Hr' : WordEnds (w' ++ d ++ w'' ++ [62])).
    { assert (X : WordEnds ((w' ++ d ++ w'' ++ [62]) ++ b)).
      { norm. norm_in Hr. exact Hr. }
      rewrite word_ends_app in X; auto. now destruct w', d, w''. }
    destruct (identifier_eq d (lit "html")) eqn:E.
    + left. apply identifier_eq_spec in E. destruct E as (_ & _ & E). cbn [negb].
      exists (lit "<!" ++ w ++ kw ++ w' ++ d ++ w'' ++ [62]), b, d. split; [now rewrite <- !app_assoc|].
      split.
      * constructor; auto.
        -- apply G.
        -- rewrite app_assoc in Hr'. rewrite (word_ends_app (w' ++ d)) in Hr'; auto.
           apply letters_same in E; [|apply letters_lit_html]. destruct E as [E _].
           destruct w', d; simpl; congruence.
      * unfold parsed_ok. cbn [in_loc at_]. do 4 f_equal. now rewrite <- !app_assoc.
    + right. cbn [negb]. eexists. split; [reflexivity|]. intros limit st.
      split; [apply at_prefix_loc_of|]. exists w, kw, w', w'', b.
      split; [now rewrite <- !app_assoc|]. repeat (split; auto).
      * apply G.
      * intros Hi. apply H. apply in_or_app. now left.
      * intros Hs. rewrite <- not_true_iff_false in E. apply E. apply identifier_eq_spec.
        split; [|split]; auto. rewrite (same_name_ascii _ _ Hs). reflexivity.
Qed.

Lemma doctype_complete p w kw w' c w'' rest :
  Blank w -> SameName kw (lit "doctype") -> Blank w' -> WordEnds (w' ++ c) ->
  SameName c (lit "html") -> Blank w'' ->
  let slice := lit "<!" ++ w ++ kw ++ w' ++ c ++ w'' ++ [62] in
  try_parse_doctype (at_ p (slice ++ rest)) = parsed_ok p slice rest (Doctype (raw c)) ModeData.
Proof.
  intros Hw Hk Hw' He Hc Hw'' slice. unfold slice. rewrite <- !app_assoc.
  unfold try_parse_doctype, c_gt. rewrite take_str_yes.
  pose proof (letters_same _ _ Hc letters_lit_html) as [Hne Hl].
  assert (Hcne : ~ Begins Space c /\ ~ Begins Space (rev c)).
  { assert (X : forall x, In x c -> ~ Space x).
    { intros x Hx Hs. specialize (Hl x Hx). unfold Space in Hs. simpl in Hs. lia. }
    split; intros (x & t & E & Hx); apply (X x); auto.
    - rewrite E. now left.
    - apply in_rev. rewrite E. now left. }
  assert (He' : WordEnds (w' ++ c ++ w'' ++ 62 :: rest)).
  { rewrite app_assoc. rewrite (word_ends_app (w' ++ c)); auto. destruct w'; [auto|discriminate]. }
  rewrite skip_gap. 2:{ split; auto. eapply name_no_space. apply same_doctype; eauto. }
  rewrite exact_yes by auto.
  rewrite skip_gap.
  2:{ split; auto. rewrite begins_app by auto. tauto. }
  change (c ++ w'' ++ [62] ++ rest) with (c ++ w'' ++ 62 :: rest). rewrite app_assoc.
  rewrite take_until_char_some.
  2:{ intros Hi. apply in_app_or in Hi. destruct Hi as [Hi|Hi].
      - apply Hl in Hi. lia.
      - eapply (blank_in w'') in Hi; auto. now apply ns62. }
  rewrite take_char_yes.
  replace (trim (c ++ w'')) with c.
  2:{ unfold trim. change (c ++ w'') with ([] ++ c ++ w''). rewrite (trim_left_gap []).
      2:{ split; [constructor|]. rewrite begins_app by auto. tauto. }
      rewrite rev_app_distr. rewrite trim_left_gap; [now rewrite rev_involutive|].
      split; [now apply Forall_rev|]. tauto. }
  replace (identifier_eq c (lit "html")) with true.
  2:{ symmetry. apply identifier_eq_spec. split; [|split]; auto.
      rewrite (same_name_ascii _ _ Hc). reflexivity. }
  unfold parsed_ok. cbn [negb in_loc at_]. do 4 f_equal. now rewrite <- !app_assoc.
Qed.
