(** Proofs that the parser reports every defect: each text with a fault, in the sense of
    [Fault], is rejected with exactly that error. *)
From Coq Require Import String List NArith Arith Bool Lia.
Import ListNotations.
From Verif Require Import Text Event Input Parse Selector Template SpecText SpecAttr SpecLocation SpecParse
  TextProofs AttrProofs AttrProofs2 LocationProofs ParseProofs ParseProofs2 ParseProofs3 ParseProofs4
  ParseProofs5 ParseProofs6.
Local Open Scope N_scope.

Lemma at_loc p l : AtPrefix p l -> l = loc_of p.
Proof. intros H. apply at_prefix_unique with p; auto. apply at_prefix_loc_of. Qed.
Lemma located_loc pre s q r l : s = q ++ r -> LocatedAt pre s r l -> l = loc_of (pre ++ q).
Proof.
  intros -> (q' & E & H). apply app_inv_tail in E. subst q'. now apply at_loc.
Qed.
Ltac located H q :=
  apply (located_loc _ _ q) in H; [rewrite H|norm; reflexivity].

(** the error of an item at the beginning of [s] *)
Definition fails (p s : str) (e : parse_error) : Prop := parse_data_mode (at_ p s) = PErr e.

Lemma fails_comment p r : (forall a b, r <> a ++ lit "-->" ++ b) ->
  fails p (lit "<!--" ++ r) (UnclosedComment (loc_of p)).
Proof.
  intros H. unfold fails, parse_data_mode, try_parse_comment. rewrite take_str_yes.
  now rewrite take_until_str_none.
Qed.

Lemma doctype_not_comment w kw r : Blank w -> SameName kw (lit "doctype") ->
  ~ CommentStart (lit "<!" ++ w ++ kw ++ r).
Proof.
  intros Hw Hk [r' E]. change (lit "<!--") with (lit "<!" ++ [45; 45]) in E.
  rewrite <- !app_assoc in E. apply app_inv_head in E.
  destruct w as [|x w]; simpl in E.
  - pose proof (letters_same _ _ Hk letters_lit_doctype) as [Hne Hlk].
    destruct kw as [|x kw]; [congruence|]. injection E as -> _.
    specialize (Hlk 45 (or_introl eq_refl)). lia.
  - injection E as -> _. inversion Hw as [|? ? X]; subst. unfold Space in X. simpl in X. lia.
Qed.

Lemma fails_doctype p w kw r : Blank w -> SameName kw (lit "doctype") -> WordEnds r -> ~ In 62 r ->
  fails p (lit "<!" ++ w ++ kw ++ r) (UnclosedDoctype (loc_of p)).
Proof.
  intros Hw Hk Hr H. unfold fails, parse_data_mode.
  rewrite comment_none by now apply doctype_not_comment. cbn [or_else].
  unfold try_parse_doctype, c_gt. rewrite take_str_yes.
  pose proof (same_doctype _ _ Hk Hr) as Hname.
  rewrite skip_gap. 2:{ split; auto. now apply (name_no_space _ _ _ Hname). }
  rewrite exact_yes by auto.
  destruct (gap_split r) as (w' & r1 & -> & G). rewrite skip_gap by auto.
  rewrite take_until_char_none; [reflexivity|]. intros Hi. apply H. apply in_app_iff. auto.
Qed.

Lemma trim_exact d w : Blank w -> ~ Begins Space d -> ~ Begins Space (rev d) -> trim (d ++ w) = d.
Proof.
  intros Hw Hd Hd'. destruct d as [|c d].
  - unfold trim. simpl. pose proof (trim_left_gap w [] (conj Hw (begins_nil _))) as E.
    rewrite app_nil_r in E. now rewrite E.
  - unfold trim. change ((c :: d) ++ w) with ([] ++ (c :: d) ++ w). rewrite (trim_left_gap []).
    2:{ split; [constructor|]. rewrite begins_app by discriminate. auto. }
    rewrite rev_app_distr. rewrite trim_left_gap; [now rewrite rev_involutive|].
    split; [now apply Forall_rev|auto].
Qed.

Lemma fails_unsupported p w kw w' d w'' r :
  Blank w -> SameName kw (lit "doctype") -> WordEnds (w' ++ d ++ w'' ++ [62]) -> Blank w' -> Blank w'' ->
  ~ In 62 d -> ~ Begins Space d -> ~ Begins Space (rev d) -> ~ SameName d (lit "html") ->
  fails p (lit "<!" ++ w ++ kw ++ w' ++ d ++ w'' ++ 62 :: r) (UnsupportedDoctype (loc_of p) d).
Proof.
  intros Hw Hk Hr Hw' Hw'' H62 Hd Hd' Hs. unfold fails, parse_data_mode.
  rewrite comment_none by now apply doctype_not_comment. cbn [or_else].
  assert (Hr' : WordEnds (w' ++ d ++ w'' ++ 62 :: r)).
  { replace (w' ++ d ++ w'' ++ 62 :: r) with ((w' ++ d ++ w'' ++ [62]) ++ r) by (norm; reflexivity).
    rewrite word_ends_app; auto. now destruct w', d, w''. }
  unfold try_parse_doctype, c_gt. rewrite take_str_yes.
  pose proof (same_doctype _ _ Hk Hr') as Hname.
  rewrite skip_gap. 2:{ split; auto. now apply (name_no_space _ _ _ Hname). }
  rewrite exact_yes by auto.
  assert (Hh : identifier_eq d (lit "html") = false).
  { rewrite <- not_true_iff_false. intros E. apply identifier_eq_spec in E. tauto. }
  destruct d as [|c d].
  - simpl app. rewrite app_assoc. rewrite skip_gap.
    2:{ apply gap_blank; [now apply blank_app|apply ns62]. }
    change (62 :: r) with ([] ++ 62 :: r) at 1. rewrite take_until_char_some by auto.
    rewrite take_char_yes. reflexivity.
  - rewrite skip_gap. 2:{ split; auto. now rewrite begins_app by discriminate. }
    rewrite app_assoc. rewrite take_until_char_some.
    2:{ intros Hi. apply in_app_or in Hi. destruct Hi as [Hi|Hi]; auto.
        eapply blank_in in Hi; eauto. now apply ns62. }
    rewrite take_char_yes. rewrite trim_exact by auto. rewrite Hh. reflexivity.
Qed.

Lemma data_mode_close p w r : Blank w ->
  parse_data_mode (at_ p (60 :: w ++ 47 :: r))
  = match try_parse_tag_close (at_ p (60 :: w ++ 47 :: r)) with Some x => x | None =>
      parse_data_mode (at_ p (60 :: w ++ 47 :: r)) end.
Proof.
  intros Hw. unfold parse_data_mode at 1.
  destruct (closing_not_bang _ w r eq_refl Hw) as [Hc Hd].
  rewrite comment_none, doctype_none by auto. cbn [or_else]. unfold try_parse_tag.
  destruct (try_parse_tag_close (at_ p (60 :: w ++ 47 :: r))) eqn:E; [reflexivity|].
  unfold parse_data_mode. rewrite comment_none, doctype_none by auto. cbn [or_else]. unfold try_parse_tag.
  now rewrite E.
Qed.
Lemma fails_close_expected p w w' r : Blank w -> Gap w' r -> WordEnds r ->
  fails p (60 :: w ++ 47 :: w' ++ r) (ExpectedClosingTagIdentifier (loc_of (p ++ 60 :: w ++ 47 :: w'))).
Proof.
  intros Hw G Hr. unfold fails. rewrite data_mode_close by auto.
  unfold try_parse_tag_close, c_lt, c_slash, c_gt.
  rewrite take_char_yes, skip_gap by auto with gaps. rewrite take_char_yes. rewrite skip_gap by auto.
  rewrite take_identifier_none by auto. cbn [in_loc at_]. do 3 f_equal. norm. reflexivity.
Qed.
Lemma fails_close_name p w w' x r err : Blank w -> Gap w' (x ++ r) -> Word x r -> NameError x err ->
  fails p (60 :: w ++ 47 :: w' ++ x ++ r)
        (InvalidClosingTagIdentifier (loc_of (p ++ 60 :: w ++ 47 :: w')) err).
Proof.
  intros Hw G Hx He. unfold fails. rewrite data_mode_close by auto.
  unfold try_parse_tag_close, c_lt, c_slash, c_gt.
  rewrite take_char_yes, skip_gap by auto with gaps. rewrite take_char_yes. rewrite skip_gap by auto.
  rewrite (take_identifier_err _ _ _ err) by auto. cbn [in_loc at_]. do 3 f_equal. norm. reflexivity.
Qed.
Lemma fails_close_end p w w' t w'' r : Blank w -> Blank w' -> Gap w'' r -> Name t (w'' ++ r) ->
  ~ Begins (eq 62) r ->
  fails p (60 :: w ++ 47 :: w' ++ t ++ w'' ++ r)
        (ExpectedClosingTagClose t (loc_of (p ++ 60 :: w ++ 47 :: w' ++ t ++ w''))).
Proof.
  intros Hw Hw' G Hn Hb. unfold fails. rewrite data_mode_close by auto.
  unfold try_parse_tag_close, c_lt, c_slash, c_gt.
  rewrite take_char_yes, skip_gap by auto with gaps. rewrite take_char_yes. rewrite skip_gap.
  2:{ split; auto. now apply (name_no_space _ _ _ Hn). }
  rewrite take_identifier_some by auto. rewrite skip_gap by auto. rewrite take_char_no by auto.
  cbn [in_loc at_]. change (id_str (name t)) with t. do 2 f_equal. norm. reflexivity.
Qed.

(** ** Start tags *)

Lemma data_mode_open p r : let s := 60 :: r in
  ~ CommentStart s -> ~ DoctypeStart s -> ~ (exists w r, s = 60 :: w ++ 47 :: r /\ Blank w) ->
  parse_data_mode (at_ p s)
  = match try_parse_tag_open (at_ p s) with Some x => x | None => parse_data_mode (at_ p s) end.
Proof.
  intros s Hc Hd Hcl. unfold parse_data_mode at 1.
  rewrite comment_none, doctype_none by auto. cbn [or_else]. unfold try_parse_tag.
  rewrite close_none by auto. cbn [or_else].
  destruct (try_parse_tag_open (at_ p s)) eqn:E; [reflexivity|].
  unfold parse_data_mode. rewrite comment_none, doctype_none by auto. cbn [or_else]. unfold try_parse_tag.
  rewrite close_none by auto. cbn [or_else]. now rewrite E.
Qed.
Lemma not_closing w x : Gap w x -> ~ Begins (eq 47) x ->
  ~ (exists w' r, 60 :: w ++ x = 60 :: w' ++ 47 :: r /\ Blank w').
Proof.
  intros G Hx (w' & r & E & Hw'). injection E as E. apply Hx.
  assert (X : x = 47 :: r).
  { rewrite <- (trim_left_gap w x), <- (trim_left_gap w' (47 :: r)); auto with gaps. now rewrite E. }
  rewrite X, begins_cons. auto.
Qed.
Lemma word_not_47 x r : Word x r -> ~ Begins (eq 47) (x ++ r).
Proof.
  intros (Hne & Hd & _) B. rewrite begins_app in B by auto. apply begins_eq in B. destruct B as [y ->].
  apply (Hd 47); [now left|]. unfold Delimiter; simpl; tauto.
Qed.
Lemma fails_open_expected p w r : ~ CommentStart (60 :: w ++ r) -> ~ DoctypeStart (60 :: w ++ r) ->
  Gap w r -> WordEnds r -> ~ Begins (eq 47) r ->
  fails p (60 :: w ++ r) (ExpectedOpeningTagIdentifier (loc_of (p ++ 60 :: w))).
Proof.
  intros Hc Hd G Hr Hb. unfold fails. rewrite data_mode_open; auto.
  2:{ now apply not_closing. }
  unfold try_parse_tag_open, c_lt, c_slash, c_gt. rewrite take_char_yes, skip_gap by auto.
  rewrite take_identifier_none by auto. cbn [in_loc at_]. do 3 f_equal. norm. reflexivity.
Qed.
Lemma fails_open_name p w x r err : ~ CommentStart (60 :: w ++ x ++ r) -> ~ DoctypeStart (60 :: w ++ x ++ r) ->
  Gap w (x ++ r) -> Word x r -> NameError x err ->
  fails p (60 :: w ++ x ++ r) (InvalidOpeningTagIdentifier (loc_of (p ++ 60 :: w)) err).
Proof.
  intros Hc Hd G Hx He. unfold fails. rewrite data_mode_open; auto.
  2:{ apply not_closing; auto. now apply word_not_47. }
  unfold try_parse_tag_open, c_lt, c_slash, c_gt. rewrite take_char_yes, skip_gap by auto.
  rewrite (take_identifier_err _ _ _ err) by auto. cbn [in_loc at_]. do 3 f_equal. norm. reflexivity.
Qed.

(** reading attributes up to some point *)
Lemma attrs_loop_reach s l r : Attrs s l r -> ~ Begins Space s -> forall fuel tag p acc,
  (length s < fuel)%nat ->
  exists q fuel', s = q ++ r /\ (length r < fuel')%nat /\ ~ Begins Space r /\
    parse_attributes_loop fuel tag (at_ p s) acc
    = parse_attributes_loop fuel' tag (at_ (p ++ q) r) (acc ++ l).
Proof.
  induction 1 as [r|n w s l r Hn G He Ha IH|n w1 w2 w3 v w4 s l r Hn H1 H2 G3 Hv G4 Ha IH];
    intros Hsp fuel tag p acc L.
  - exists [], fuel. rewrite !app_nil_r. auto.
  - destruct fuel as [|fuel]; [lia|].
    destruct (IH (proj2 G) fuel tag ((p ++ n) ++ w) (acc ++ [Attribute (name n) None]))
      as (q & fuel' & -> & L' & Hr & R).
    { rewrite !app_length in L. pose proof (proj1 (proj1 Hn)). destruct n; [congruence|]. simpl in L. lia. }
    exists (n ++ w ++ q), fuel'. split; [norm; reflexivity|]. split; auto. split; auto.
    cbn [parse_attributes_loop].
    replace (input_is_empty (at_ p (n ++ w ++ q ++ r))) with false.
    2:{ pose proof (proj1 (proj1 Hn)). destruct n; [congruence|reflexivity]. }
    unfold try_parse_attribute, c_eq. rewrite take_identifier_some by auto.
    rewrite skip_gap by auto. rewrite take_char_no by auto. rewrite skip_none by apply G.
    etransitivity; [exact R|]. norm. reflexivity.
  - destruct fuel as [|fuel]; [lia|].
    destruct (IH (proj2 G4) fuel tag (p ++ n ++ w1 ++ 61 :: w2 ++ 34 :: w3 ++ v ++ 34 :: w4)
                (acc ++ [Attribute (name n) (Some (raw v))])) as (q & fuel' & -> & L' & Hr & R).
    { repeat (rewrite app_length in L; cbn [length] in L). lia. }
    exists (n ++ w1 ++ 61 :: w2 ++ 34 :: w3 ++ v ++ 34 :: w4 ++ q), fuel'.
    split; [norm; reflexivity|]. split; auto. split; auto.
    cbn [parse_attributes_loop].
    match goal with |- context[input_is_empty ?i] => replace (input_is_empty i) with false end.
    2:{ pose proof (proj1 (proj1 Hn)). destruct n; [congruence|reflexivity]. }
    unfold try_parse_attribute, c_eq, c_quot.
    rewrite take_identifier_some by now apply name_snoc.
    rewrite skip_gap by auto with gaps. rewrite take_char_yes.
    rewrite skip_gap by auto with gaps. rewrite take_char_yes.
    rewrite skip_gap.
    2:{ destruct G3 as [G3 G3']. split; auto. destruct v; simpl; [rewrite begins_cons; apply ns34|].
        now rewrite begins_cons in *. }
    rewrite take_until_char_some by auto. rewrite take_char_yes. rewrite skip_gap by auto.
    norm. norm_in R. etransitivity; [exact R|]. reflexivity.
Qed.

Definition tag_tail (p : str) (n : str) (x : presult (attributes * input)) : option (presult parsed) :=
  match x with
  | PErr e => Some (PErr e)
  | PPanic => Some PPanic
  | PFuel => Some PFuel
  | POk (attrs, rest) =>
      let rest := skip_whitespace rest in
      let '(self_close, rest) :=
        match take_char rest c_slash with
        | Some rest => (true, skip_whitespace rest)
        | None => (false, rest)
        end in
      match take_char rest c_gt with
      | None => Some (PErr (ExpectedOpeningTagClose n (in_loc rest)))
      | Some rest =>
          let ev := if is_void_tag n then VoidTag (name n) attrs
                    else if self_close then SelfClosedTag (name n) attrs
                    else OpeningTag (name n) attrs in
          Some (POk (Parsed (Located (loc_of p) ev) (mode_for_tag n self_close) rest))
      end
  end.

(** reading a start tag up to some point *)
Lemma tag_reach p s n a r : TagStart s n a r ->
  exists q fuel, s = q ++ r /\ (length r < fuel)%nat /\ ~ Begins Space r /\
    parse_data_mode (at_ p s)
    = match tag_tail p n (parse_attributes_loop fuel n (at_ (p ++ q) r) a) with
      | Some x => x | None => parse_data_mode (at_ p s) end.
Proof.
  intros (Hc & Hd & w & w' & s' & -> & Hw & Hn & G & Ha).
  assert (G0 : Gap w (n ++ w' ++ s')) by (split; auto; apply (name_no_space _ _ _ Hn)).
  destruct (attrs_loop_reach _ _ _ Ha (proj2 G) (S (length s')) n ((((p ++ [60]) ++ w) ++ n) ++ w') [])
    as (q & fuel & -> & L & Hr & R); [lia|].
  exists (60 :: w ++ n ++ w' ++ q), fuel. split; [norm; reflexivity|]. split; auto. split; auto.
  etransitivity.
  { apply data_mode_open; auto. apply not_closing; auto. apply word_not_47. apply Hn. }
  unfold try_parse_tag_open, c_lt. rewrite take_char_yes, skip_gap by auto.
  rewrite take_identifier_some by auto. rewrite skip_gap by auto.
  change (id_str (name n)) with n. unfold parse_attributes.
  change (content (at_ ((((p ++ [60]) ++ w) ++ n) ++ w') (q ++ r))) with (q ++ r).
  rewrite skip_none by apply G. loop R. unfold tag_tail.
  replace (p ++ 60 :: w ++ n ++ w' ++ q) with (((((p ++ [60]) ++ w) ++ n) ++ w') ++ q) by (norm; reflexivity).
  reflexivity.
Qed.

Lemma fails_attr_name p s n a x r err l : TagStart s n a (x ++ r) -> Word x r -> NameError x err ->
  LocatedAt p s (x ++ r) l -> fails p s (InvalidAttributeIdentifier l err).
Proof.
  intros TS Hx He Hl. destruct (tag_reach p _ _ _ _ TS) as (q & fuel & -> & L & Hr & R).
  apply (located_loc _ _ q) in Hl; auto. subst l.
  unfold fails. rewrite R. destruct fuel as [|fuel]; [lia|]. cbn [parse_attributes_loop].
  replace (input_is_empty (at_ (p ++ q) (x ++ r))) with false.
  2:{ pose proof (proj1 Hx). destruct x; [congruence|reflexivity]. }
  unfold try_parse_attribute. rewrite (take_identifier_err _ _ _ err) by auto. reflexivity.
Qed.
Lemma fails_attr_value p s n a attr w w' r l : TagStart s n a (attr ++ w ++ 61 :: w' ++ r) -> Blank w ->
  Name attr (w ++ [61]) -> Gap w' r -> ~ Begins (eq 34) r -> LocatedAt p s r l ->
  fails p s (InvalidAttributeValue l n attr).
Proof.
  intros TS Hw Hn G Hb Hl. destruct (tag_reach p _ _ _ _ TS) as (q & fuel & -> & L & Hr & R).
  apply (located_loc _ _ (q ++ attr ++ w ++ 61 :: w')) in Hl; [|norm; reflexivity]. subst l.
  unfold fails. rewrite R. destruct fuel as [|fuel]; [lia|]. cbn [parse_attributes_loop].
  match goal with |- context[input_is_empty ?i] => replace (input_is_empty i) with false end.
  2:{ pose proof (proj1 (proj1 Hn)) as X. destruct attr; [now destruct X|reflexivity]. }
  unfold try_parse_attribute, c_eq, c_quot.
  rewrite take_identifier_some by now apply name_snoc.
  rewrite skip_gap by auto with gaps. rewrite take_char_yes. rewrite skip_gap by auto.
  rewrite take_char_no by auto. cbn [tag_tail in_loc at_]. change (id_str (name attr)) with attr.
  do 2 f_equal. norm. reflexivity.
Qed.
Lemma fails_attr_unclosed p s n a attr w w' r l : TagStart s n a (attr ++ w ++ 61 :: w' ++ 34 :: r) -> Blank w ->
  Name attr (w ++ [61]) -> Blank w' -> ~ In 34 r -> LocatedAt p s (34 :: r) l ->
  fails p s (UnclosedAttributeValue l n attr).
Proof.
  intros TS Hw Hn Hw' Hb Hl. destruct (tag_reach p _ _ _ _ TS) as (q & fuel & -> & L & Hr & R).
  apply (located_loc _ _ (q ++ attr ++ w ++ 61 :: w')) in Hl; [|norm; reflexivity]. subst l.
  unfold fails. rewrite R. destruct fuel as [|fuel]; [lia|]. cbn [parse_attributes_loop].
  match goal with |- context[input_is_empty ?i] => replace (input_is_empty i) with false end.
  2:{ pose proof (proj1 (proj1 Hn)) as X. destruct attr; [now destruct X|reflexivity]. }
  unfold try_parse_attribute, c_eq, c_quot.
  rewrite take_identifier_some by now apply name_snoc.
  rewrite skip_gap by auto with gaps. rewrite take_char_yes. rewrite skip_gap by auto with gaps.
  rewrite take_char_yes. destruct (gap_split r) as (w3 & r5 & -> & G3). rewrite skip_gap by auto.
  rewrite take_until_char_none.
  2:{ intros Hi. apply Hb. apply in_app_iff. auto. }
  cbn [tag_tail in_loc at_]. change (id_str (name attr)) with attr.
  do 2 f_equal. norm. reflexivity.
Qed.
Lemma attrs_loop_end fuel tag p r acc : (length r < fuel)%nat -> WordEnds r ->
  parse_attributes_loop fuel tag (at_ p r) acc = POk (acc, at_ p r).
Proof.
  intros L H. destruct fuel as [|fuel]; [lia|]. cbn [parse_attributes_loop].
  destruct (input_is_empty (at_ p r)); auto. unfold try_parse_attribute.
  now rewrite take_identifier_none.
Qed.
Lemma fails_open_end p s n a r l : TagStart s n a r -> ~ Begins (eq 47) r -> WordEnds r ->
  ~ Begins (eq 62) r -> LocatedAt p s r l -> fails p s (ExpectedOpeningTagClose n l).
Proof.
  intros TS Hb Hw Hb' Hl. destruct (tag_reach p _ _ _ _ TS) as (q & fuel & -> & L & Hr & R).
  apply (located_loc _ _ q) in Hl; auto. subst l.
  unfold fails. rewrite R. rewrite attrs_loop_end by auto.
  cbn [tag_tail]. rewrite skip_none by auto. unfold c_slash, c_gt. rewrite take_char_no by auto.
  rewrite take_char_no by auto. reflexivity.
Qed.
Lemma fails_open_end_slash p s n a w r l : TagStart s n a (47 :: w ++ r) -> Gap w r ->
  ~ Begins (eq 62) r -> LocatedAt p s r l -> fails p s (ExpectedOpeningTagClose n l).
Proof.
  intros TS G Hb' Hl. destruct (tag_reach p _ _ _ _ TS) as (q & fuel & -> & L & Hr & R).
  apply (located_loc _ _ (q ++ 47 :: w)) in Hl; [|norm; reflexivity]. subst l.
  unfold fails. rewrite R. rewrite attrs_loop_end; auto.
  2:{ right. rewrite begins_cons. unfold Delimiter; simpl; tauto. }
  cbn [tag_tail]. rewrite skip_none by auto. unfold c_slash, c_gt. rewrite take_char_yes.
  rewrite skip_gap by auto. rewrite take_char_no by auto. cbn [in_loc at_]. do 2 f_equal. norm. reflexivity.
Qed.

(** ** All faults *)

Lemma next_fails o pre s st e : s <> [] -> fails pre s e ->
  exists it, iter_next (state o pre s None st) = (Some (PErr e), it).
Proof.
  intros Hne H. unfold iter_next, state. cbn [it_rest it_mode it_stack it_options mode_of parse].
  replace (input_is_empty (at_ pre s)) with false by (destruct s; [congruence|reflexivity]).
  rewrite H. eauto.
Qed.
Lemma unclosed_eq e x : Unclosed e x -> x = stack_entry (entry e).
Proof.
  destruct x as [n l]. intros [H1 H2]. cbn in *. apply at_loc in H2. subst. reflexivity.
Qed.
Lemma unclosed_all es xs : Forall2 Unclosed es xs -> xs = map (fun e => stack_entry (entry e)) es.
Proof. induction 1 as [|e x es xs H _ IH]; [reflexivity|]. apply unclosed_eq in H. simpl. congruence. Qed.

Lemma end_tag_item slice rest n : EndTag slice n -> Item None slice rest (ClosingTag (name n)) None.
Proof. intros H. constructor; [now constructor|reflexivity|exact I]. Qed.

Lemma next_fault o pre s m st e : good_mode m -> (m = None \/ s = []) ->
  Fault (max_stack_depth o) pre s st e ->
  exists it, iter_next (state o pre s m st) = (Some (PErr e), it).
Proof.
  intros Hg Hm F.
  assert (TSne : forall n a r, TagStart s n a r -> s <> []).
  { intros n a r (_ & _ & w & w' & s' & -> & _). discriminate. }
  assert (N : s <> [] -> fails pre s e -> exists it, iter_next (state o pre s m st) = (Some (PErr e), it)).
  { intros Hne H. destruct Hm as [->|]; [|congruence]. now apply next_fails. }
  assert (C : forall slice rest n, s = slice ++ rest -> EndTag slice n -> m = None /\
    next_item o pre st (ClosingTag (name n)) (fun st' => state o (pre ++ slice) rest None st')
      (iter_next (state o pre s m st))).
  { intros slice rest n -> H.
    assert (Hne : slice ++ rest <> []).
    { destruct H as (w & w' & w'' & -> & _). discriminate. }
    destruct Hm as [->|]; [|congruence]. split; auto. apply iter_next_item; auto.
    - discriminate.
    - apply item_complete; [exact I|]. now apply end_tag_item. }
  destruct e; cbn [Fault] in F.
  - destruct F as (Hl & w & kw & w' & w'' & r & -> & F). apply at_loc in Hl. subst.
    apply N; [discriminate|]. apply fails_unsupported; tauto.
  - destruct F as (Hl & w & kw & r & -> & F). apply at_loc in Hl. subst.
    apply N; [discriminate|]. apply fails_doctype; tauto.
  - destruct F as (Hl & r & -> & F). apply at_loc in Hl. subst.
    apply N; [discriminate|]. now apply fails_comment.
  - destruct F as (a & r & Hl & Hb & [(TS & Hb' & Hr)|(w & TS & G)]).
    + apply N; eauto. eapply fails_open_end; eauto.
    + apply N; eauto. eapply fails_open_end_slash; eauto.
  - destruct F as (w & w' & w'' & r & -> & Hw & Hw' & G & Hn & Hb & Hl).
    apply N; [discriminate|]. located Hl (60 :: w ++ 47 :: w' ++ tag ++ w''). now apply fails_close_end.
  - destruct F as (Hc & Hd & w & r & -> & G & Hr & Hb & Hl).
    apply N; [discriminate|]. located Hl (60 :: w). now apply fails_open_expected.
  - destruct F as (Hc & Hd & w & x & r & -> & G & Hx & He & Hl).
    apply N; [discriminate|]. located Hl (60 :: w). now apply fails_open_name.
  - destruct F as (w & w' & r & -> & Hw & G & Hr & Hl).
    apply N; [discriminate|]. located Hl (60 :: w ++ 47 :: w'). now apply fails_close_expected.
  - destruct F as (w & w' & x & r & -> & Hw & G & Hx & He & Hl).
    apply N; [discriminate|]. located Hl (60 :: w ++ 47 :: w'). now apply fails_close_name.
  - destruct F as (n & a & x & r & TS & Hx & He & Hl). apply N; eauto. eapply fails_attr_name; eauto.
  - destruct F as (a & w & w' & r & TS & Hw & Hn & G & Hb & Hl). apply N; eauto.
    eapply fails_attr_value; eauto.
  - destruct F as (a & w & w' & r & TS & Hw & Hn & G & Hb & Hl). apply N; eauto.
    eapply fails_attr_unclosed; eauto.
  - destruct F.
  - destruct F as (-> & top & below & -> & H1 & H2). apply unclosed_eq in H1. apply unclosed_all in H2.
    subst. rewrite iter_next_end. eexists. do 4 f_equal. rewrite <- map_rev, map_map. reflexivity.
  - destruct F as (Hl & El & Ek & slice & rest & t & a & -> & Hs & <-). apply at_loc in Hl. subst location.
    inversion Hs as [| | | | | |? n ? T Hv]; subst.
    assert (Hn : ValidName n). { apply spells_name in Hs. destruct Hs as (n' & E & Hn). injection E as ->; exact Hn. }
    destruct (tag_event_item slice rest n a false T) as (m' & Hi & _).
    unfold tag_event in Hi. rewrite (proj2 (is_void_false n Hn) Hv) in Hi.
    assert (Hne : slice ++ rest <> []).
    { apply spells_nonempty in Hs. now destruct slice. }
    destruct Hm as [->|]; [|congruence].
    assert (X : next_item o pre st (OpeningTag (name n) a) (fun st' => state o (pre ++ slice) rest m' st')
      (iter_next (state o pre (slice ++ rest) None st))).
    { apply iter_next_item; auto.
      - intros t b E. injection E as <- _. eauto.
      - apply item_complete; [exact I|auto]. }
    cbn [next_item] in X. rewrite El, Nat.eqb_refl in X. destruct X as (k & it & Ek & _ & X).
    injection Ek as <-. eauto.
  - destruct F as (Hl & -> & slice & rest & E & He). apply at_loc in Hl. subst location.
    destruct (C _ _ _ E He) as [-> X]. exact X.
  - destruct F as (Hl & p & st' & -> & Hp & slice & rest & E & He & Hs). apply at_loc in Hl, Hp. subst.
    destruct (C _ _ _ eq_refl He) as [-> X]. cbn [next_item] in X.
    replace (ident_eqb (name closing_tag) (name opening_tag)) with false in X; [exact X|].
    symmetry. rewrite <- not_true_iff_false. rewrite ident_eqb_names; auto.
    destruct He as (? & ? & ? & _ & _ & _ & _ & Hn). apply Hn.
Qed.

Lemma fault_parses s o e pre rest m st evs :
  Reads (max_stack_depth o) s pre rest m st evs -> (m = None \/ rest = []) ->
  Fault (max_stack_depth o) pre rest st e -> parse_events s o = PErr e.
Proof.
  intros R Hm F. pose proof (reads_mode _ _ _ _ _ _ _ R) as Hg.
  destruct (next_fault o pre rest m st e) as [it E]; auto.
  { destruct m; [apply Hg|exact I]. }
  unfold parse_events. pose proof (reads_measure _ _ _ _ _ _ _ R) as L.
  replace (2 * length s + 2)%nat with (length evs + S (2 * length s + 1 - length evs))%nat by lia.
  rewrite (collect_reads _ _ _ _ _ _ _ R). cbn [collect]. now rewrite E.
Qed.

(** The parser reports exactly the faults. *)
Lemma parse_error_iff s o e : parse_events s o = PErr e <->
  exists pre rest m st evs, s = pre ++ rest /\
    Reads (max_stack_depth o) s pre rest m st evs /\ (m = None \/ rest = []) /\
    Fault (max_stack_depth o) pre rest st e.
Proof.
  split; [apply parse_error_fault'|].
  intros (pre & rest & m & st & evs & _ & R & Hm & F). eapply fault_parses; eauto.
Qed.

Definition fits (s : str) (o : options) : Prop :=
  match max_input_len o with Some n => (length (utf8 s) <= n)%nat | None => True end.
Lemma from_str_err_iff s o e : from_str s o = TErr (ParseError e) <-> parse_events s o = PErr e /\ fits s o.
Proof.
  unfold from_str, fits. destruct (max_input_len o) as [n|].
  - rewrite str_len_utf8. destruct (Nat.ltb_spec n (length (utf8 s))).
    + split; [discriminate|]. intros [_ X]. lia.
    + destruct (parse_events s o); split; intros X; try discriminate; try (destruct X as [X _]; discriminate).
      * injection X as ->. auto.
      * destruct X as [X _]. injection X as ->. auto.
  - destruct (parse_events s o); split; intros X; try discriminate; try (destruct X as [X _]; discriminate).
    * injection X as ->. auto.
    * destruct X as [X _]. injection X as ->. auto.
Qed.
Lemma errors_exact s o e : from_str s o = TErr (ParseError e) <->
  match max_input_len o with Some n => (length (utf8 s) <= n)%nat | None => True end /\
  exists pre rest m st evs, s = pre ++ rest /\
    Reads (max_stack_depth o) s pre rest m st evs /\ (m = None \/ rest = []) /\
    Fault (max_stack_depth o) pre rest st e.
Proof. rewrite from_str_err_iff, parse_error_iff. unfold fits. tauto. Qed.
Lemma fault_unique limit s pre rest m st evs e pre' rest' m' st' evs' e' :
  Reads limit s pre rest m st evs -> (m = None \/ rest = []) -> Fault limit pre rest st e ->
  Reads limit s pre' rest' m' st' evs' -> (m' = None \/ rest' = []) -> Fault limit pre' rest' st' e' ->
  e = e'.
Proof.
  intros R M F R' M' F'.
  pose proof (fault_parses s (Options limit None) e _ _ _ _ _ R M F) as E.
  pose proof (fault_parses s (Options limit None) e' _ _ _ _ _ R' M' F') as E'. congruence.
Qed.

Lemma fault_example : exists st evs,
  Reads None (lit "<p></q>") (lit "<p>") (lit "</q>") None st evs /\
  Fault None (lit "<p>") (lit "</q>") st
    (MismatchedClosingTag (lit "p") (Location 1 1 0) (lit "q") (Location 1 4 3)).
Proof.
  assert (P : parse_events (lit "<p></q>") (Options None None)
    = PErr (MismatchedClosingTag (lit "p") (Location 1 1 0) (lit "q") (Location 1 4 3)))
    by (vm_compute; reflexivity).
  apply parse_error_iff in P. destruct P as (pre & rest & m & st & evs & E & R & Hm & F).
  exists st, evs.
  assert (X : pre = lit "<p>").
  { pose proof F as F'. cbn [Fault] in F'. destruct F' as (Hl & _).
    destruct Hl as (_ & _ & Hl). cbn in Hl.
    change (lit "<p></q>") with [60; 112; 62; 60; 47; 113; 62] in E.
    do 3 (destruct pre as [|? pre]; [vm_compute in Hl; discriminate|injection E as <- E]).
    destruct pre as [|? pre]; [reflexivity|]. injection E as <- E. exfalso.
    change (utf8 (60 :: 112 :: 62 :: 60 :: pre)) with ([60; 112; 62; 60] ++ utf8 pre) in Hl.
    discriminate. }
  subst pre. change (lit "<p></q>") with (lit "<p>" ++ lit "</q>") in E. apply app_inv_head in E.
  subst rest. split; [|exact F]. destruct Hm as [->|]; [exact R|discriminate].
Qed.
