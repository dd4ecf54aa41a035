(** Proofs about texts that are continued: which errors do not stay. *)
From Coq Require Import String List NArith Arith Bool Lia.
Import ListNotations.
From Verif Require Import Text Event Input Parse Selector Template SpecText SpecAttr SpecLocation SpecParse
  SpecDocument TextProofs AttrProofs AttrProofs2 LocationProofs ParseProofs ParseProofs2 ParseProofs3
  ParseProofs4 ParseProofs5 ParseProofs6 ParseProofs7 ParseProofs10 ParseProofs12.
Local Open Scope N_scope.

Lemma fault_nonempty limit pre st e : Fault limit pre [] st e ->
  exists i os, e = MissingClosingTags i os.
Proof.
  assert (T : forall n a r, ~ TagStart [] n a r).
  { intros n a r (_ & _ & w & w' & s' & E & _). discriminate. }
  assert (A : forall a b : str, [] = a ++ b -> a = []) by (now intros [|]).
  destruct e; cbn [Fault]; intros F; try (now eauto); exfalso.
  - now destruct F as (_ & ? & ? & ? & ? & ? & E & _).
  - now destruct F as (_ & ? & ? & ? & E & _).
  - now destruct F as (_ & ? & E & _).
  - destruct F as (a & r & _ & _ & [(F & _)|(w & F & _)]); now apply T in F.
  - now destruct F as (? & ? & ? & ? & E & _).
  - now destruct F as (_ & _ & ? & ? & E & _).
  - now destruct F as (_ & _ & ? & ? & ? & E & _).
  - now destruct F as (? & ? & ? & E & _).
  - now destruct F as (? & ? & ? & ? & E & _).
  - destruct F as (? & ? & ? & ? & F & _); now apply T in F.
  - destruct F as (? & ? & ? & ? & F & _); now apply T in F.
  - destruct F as (? & ? & ? & ? & F & _); now apply T in F.
  - destruct F as (_ & _ & _ & sl & rs & tag0 & a & E & Hs & _). apply A in E. now apply spells_nonempty in Hs.
  - destruct F as (_ & _ & sl & rs & E & Hs). apply A in E. subst. now destruct Hs as (? & ? & ? & E & _).
  - destruct F as (_ & p & st' & _ & _ & sl & rs & E & Hs & _). apply A in E. subst.
    now destruct Hs as (? & ? & ? & E & _).
Qed.
Lemma error_stays s t o e : from_str s o = TErr (ParseError e) -> ~ Pending s e ->
  (forall n, max_input_len o = Some n -> (length (utf8 (s ++ t)) <= n)%nat) ->
  from_str (s ++ t) o = TErr (ParseError e).
Proof.
  rewrite !errors_exact. intros (_ & pre & rest & m & st & evs & E & R & Hm & F) P Hn. split.
  { destruct (max_input_len o); auto. }
  assert (Hr : rest <> []).
  { intros ->. apply fault_nonempty in F as (i & os & ->). now apply P. }
  exists pre, (rest ++ t), m, st, evs. split; [now rewrite E, app_assoc|].
  split; [now apply reads_extend|]. split; [destruct Hm; auto; congruence|].
  apply fault_extend; auto. now rewrite <- E.
Qed.

(** ** Errors that do not stay *)

Lemma same_offset (p q : str) : length (utf8 p) = length (utf8 q) -> forall a b, p ++ a = q ++ b -> p = q.
Proof.
  revert q; induction p as [|c p IH]; intros [|d q] L a b E; auto.
  - exfalso. simpl in L. rewrite app_length in L. pose proof (len_utf8_char d).
    assert (0 < len_utf8 d)%nat by (unfold len_utf8; repeat destruct (_ <? _); lia). lia.
  - exfalso. simpl in L. rewrite app_length in L. pose proof (len_utf8_char c).
    assert (0 < len_utf8 c)%nat by (unfold len_utf8; repeat destruct (_ <? _); lia). lia.
  - injection E as -> E. simpl in L. rewrite !app_length in L. f_equal. eapply IH; eauto. lia.
Qed.
Lemma same_place (p q a b : str) l : p ++ a = q ++ b -> AtPrefix p l -> AtPrefix q l -> p = q /\ a = b.
Proof.
  intros E (_ & _ & H1) (_ & _ & H2). assert (p = q) by (eapply same_offset; eauto; congruence).
  subst. split; auto. now apply app_inv_head in E.
Qed.

Lemma reads_plain limit s pre rest m st evs : Reads limit s pre rest m st evs ->
  Forall (fun e => plain_name (snd e)) st.
Proof.
  induction 1 as [|pre slice rest m m' st st' evs ev HR IH Hne Hi Hn]; [constructor|].
  destruct ev; cbn [Nest] in Hn; try (now subst).
  - destruct Hn as [_ ->]. constructor; auto. inversion Hi as [? ? ? ? Hs _ _|]; subst.
    inversion Hs; subst. match goal with X : Tag _ _ _ _ |- _ => now apply tag_plain in X end.
  - destruct Hn as (p & n & -> & _). now inversion IH.
Qed.
Lemma reads_top limit s pre rest r st evs : Reads limit s pre rest (Some r) st evs ->
  exists p n st', st = (p, n) :: st' /\ SameName n r.
Proof.
  intros H. inversion H as [|pre0 slice rest0 m m' st0 st' evs0 ev HR Hne Hi Hn]; subst.
  inversion Hi as [? ? ? ? _ Ha _|]; subst. destruct ev; try discriminate Ha.
  destruct Hn as [_ ->]. destruct Ha as [_ Ha]. eauto.
Qed.

Lemma missing_goes s l i os : from_str s (Options l None) = TErr (ParseError (MissingClosingTags i os)) ->
  exists t, from_str (s ++ t) (Options l None) <> TErr (ParseError (MissingClosingTags i os)).
Proof.
  rewrite errors_exact. intros (_ & pre & rest & m & st & evs & E & R & _ & F).
  cbn [max_stack_depth] in *. cbn [Fault] in F. destruct F as (-> & [p n] & below & -> & _ & HF).
  rewrite app_nil_r in E. subst pre.
  pose proof (reads_plain _ _ _ _ _ _ _ R) as Hp. inversion Hp as [|? ? Hn _]; subst. cbn in Hn.
  pose (t := [60; 47] ++ n ++ [62]). exists t.
  assert (He : EndTag t n) by now apply end_tag_read.
  assert (HR : exists evs', Reads l (s ++ t) (s ++ t) [] None below evs').
  { assert (R' : Reads l (s ++ t) s t m ((p, n) :: below) evs).
    { clear Hp HF. inversion R as [|pre0 slice rest0 m0 m' st0 st' evs0 ev HR Hne Hi Hns]; subst.
      pose proof HR as HR'. apply reads_extend with (t := t) in HR'; auto.
      rewrite app_nil_r in HR'.
      eapply R_step; [exact HR'|destruct slice; discriminate|..|exact Hns].
      inversion Hi as [? ? ? ? Hs Ha Hb|r ? ? Hr Hf]; subst.
      - constructor; auto. destruct ev; auto. right. apply begins_cons. reflexivity.
      - destruct (reads_top _ _ _ _ _ _ _ HR) as (p1 & n1 & st1 & -> & Hn1).
        cbn [Nest] in Hns. injection Hns as -> -> ->. constructor.
        + right. exists t, [], n1. rewrite app_nil_r. auto.
        + intros a q Eq Hq X. apply (Hf a q Eq Hq). apply (ends_raw_keep r q [] t); auto.
          right. apply begins_cons. reflexivity. }
    destruct m as [r|].
    - destruct (reads_top _ _ _ _ _ _ _ R') as (p1 & n1 & st1 & E1 & Hn1). injection E1 as <- <- <-.
      eexists. eapply R_step; [| |apply end_tag_item; exact He|].
      + rewrite app_nil_r. rewrite <- (app_nil_r s) at 2. eapply (R_step _ _ s []); [exact R'|discriminate|..].
        * apply I_raw; [right; exists t, [], n; rewrite app_nil_r; auto|].
          intros a q Eq Hq. now destruct a, q.
        * reflexivity.
      + discriminate.
      + exists p, n. split; auto. apply same_name_refl.
    - eexists. eapply R_step; [rewrite app_nil_r; exact R'|discriminate|apply end_tag_item; exact He|].
      exists p, n. split; auto. apply same_name_refl. }
  destruct HR as [evs' HR]. intros X. apply from_str_err in X.
  destruct below as [|[p' n'] below].
  - assert (Y : parse_events (s ++ t) (Options l None) = POk evs') by now apply parse_iff. congruence.
  - assert (Y : parse_events (s ++ t) (Options l None) = PErr
       (MissingClosingTags (n', loc_of p') (map (fun e => (snd e, loc_of (fst e))) (rev below)))).
    { eapply fault_parses; [exact HR|auto|]. cbn [Fault]. split; auto. exists (p', n'), below.
      split; auto. split; [split; [reflexivity|apply at_prefix_loc_of]|].
      induction (rev below) as [|x b IH]; constructor; auto. split; [reflexivity|apply at_prefix_loc_of]. }
    rewrite Y in X. injection X as _ <-. 
    assert (L : forall (A B : Type) (Q : A -> B -> Prop) x y, Forall2 Q x y -> length x = length y)
      by (induction 1; simpl; auto).
    apply L in HF. rewrite map_length, !rev_length in HF. simpl in HF. lia.
Qed.

Lemma not97 : ~ Delimiter 97. Proof. unfold Delimiter. simpl. lia. Qed.
Lemma pending_goes s l e : from_str s (Options l None) = TErr (ParseError e) -> Pending s e ->
  exists t, from_str (s ++ t) (Options l None) <> TErr (ParseError e).
Proof.
  intros H P.
  assert (K : forall t, (forall pre rest m st evs pre' rest' st',
    s = pre ++ rest -> Reads l s pre rest m st evs ->
    Fault l pre rest st e -> s ++ t = pre' ++ rest' -> Fault l pre' rest' st' e -> False) ->
    exists t, from_str (s ++ t) (Options l None) <> TErr (ParseError e)).
  { intros t X. exists t. intros Y. apply errors_exact in H, Y.
    destruct H as (_ & pre & rest & m & st & evs & E & R & _ & F).
    destruct Y as (_ & pre' & rest' & m' & st' & evs' & E' & _ & _ & F').
    eapply X; eauto. }
  assert (Ends : forall t pre' q' r', s ++ t = pre' ++ q' ++ r' -> forall loc, AtPrefix s loc ->
    AtPrefix (pre' ++ q') loc -> r' = t).
  { intros t pre' q' r' E loc H1 H2. rewrite app_assoc in E.
    destruct (same_place _ _ _ _ _ E H1 H2). auto. }
  assert (WordGoes : forall loc x err, x <> IdNotAscii -> err = x -> WordAtEnd s loc ->
     forall pre' q' x' r', s ++ [955] = pre' ++ q' ++ x' ++ r' -> AtPrefix (pre' ++ q') loc ->
       Word x' r' -> NameError x' err -> False).
  { intros loc x err Hx -> (p & xw & Es & Hp & Hd) pre' q' x' r' E Hq Hw He.
    rewrite Es in E. rewrite app_assoc, <- app_assoc in E.
    destruct (same_place _ _ _ _ _ E Hp Hq) as [_ Ew].
    assert (r' = []).
    { destruct Hw as (_ & _ & [->|(c & z & -> & Hc)]); auto. exfalso.
      assert (In c (xw ++ [955])) as Z by (rewrite Ew, in_app_iff; right; now left).
      apply in_app_iff in Z. destruct Z as [Z|[<-|[]]]; [now apply (Hd c)|].
      unfold Delimiter in Hc. simpl in Hc. lia. }
    subst r'. rewrite app_nil_r in Ew. subst x'.
    assert (In 955 (xw ++ [955])) by (rewrite in_app_iff; right; now left).
    destruct x; cbn [NameError] in He; try congruence.
    - destruct xw; discriminate.
    - destruct He as [He _]. apply He in H0. lia.
    - destruct He as [He _]. apply He in H0. lia. }
  destruct e; cbn [Pending] in P; try contradiction.
  - (* doctype *)
    apply (K [62]). intros pre rest m st evs pre' rest' st' E _ F E' F'. cbn [Fault] in *.
    destruct F as (Hl & w & kw & r & -> & F). destruct F' as (Hl' & w' & kw' & r' & -> & Hw' & Hk' & _ & Hr').
    rewrite E, <- app_assoc in E'. destruct (same_place _ _ _ _ _ E' Hl Hl') as [_ X].
    assert (In 62 (lit "<!" ++ w' ++ kw' ++ r')) as Z.
    { rewrite <- X. apply in_app_iff. right. now left. }
    rewrite !app_assoc, in_app_iff, <- app_assoc in Z. destruct Z as [Z|Z]; auto.
    now apply (doctype_prefix_no62 w' kw').
  - (* comment *)
    apply (K (lit "-->")). intros pre rest m st evs pre' rest' st' E _ F E' F'. cbn [Fault] in *.
    destruct F as (Hl & r & -> & F). destruct F' as (Hl' & r' & -> & F').
    rewrite E, <- app_assoc in E'. destruct (same_place _ _ _ _ _ E' Hl Hl') as [_ X].
    rewrite <- app_assoc in X. apply app_inv_head in X. apply (F' r []). now rewrite <- X, app_nil_r.
  - apply (K [62]). intros pre rest m st evs pre' rest' st' E _ F E' F'. cbn [Fault] in *.
    destruct F' as (a & r & (q & -> & Hl) & Hb & _). apply Hb.
    rewrite (Ends [62] _ _ _ E' _ P Hl). now apply begins_cons.
  - apply (K [62]). intros pre rest m st evs pre' rest' st' E _ F E' F'. cbn [Fault] in *.
    destruct F' as (? & ? & ? & r & _ & _ & _ & _ & _ & Hb & (q & -> & Hl)). apply Hb.
    rewrite (Ends [62] _ _ _ E' _ P Hl). now apply begins_cons.
  - apply (K [97]). intros pre rest m st evs pre' rest' st' E _ F E' F'. cbn [Fault] in *.
    destruct F' as (_ & _ & ? & r & _ & _ & Hw & _ & (q & -> & Hl)).
    rewrite (Ends [97] _ _ _ E' _ P Hl) in Hw. destruct Hw as [Hw|Hw]; [discriminate|].
    destruct Hw as (c & z & Ec & Hc). injection Ec as <- _. revert Hc. now apply not97.
  - destruct P as [[Hx P]|P].
    + apply (K [955]). intros pre rest m st evs pre' rest' st' E _ F E' F'. cbn [Fault] in *.
      destruct F' as (_ & _ & ? & x & r & _ & _ & Hw & He & (q & -> & Hl)).
      eapply WordGoes; eauto.
    + destruct P as (p & x & y & w & kw & Es & Hp & Ed & Hw & Hk).
      apply (K y). intros pre rest m st evs pre' rest' st' E _ F E' F'. cbn [Fault] in *.
      destruct F' as (_ & Hd & w' & x' & r & Er & [Hw' _] & Hx' & _ & (q & E2 & Hl)).
      assert (Eq : q = 60 :: w').
      { apply (app_inv_tail (x' ++ r)). etransitivity; [symmetry; exact E2|exact Er]. }
      subst q. rewrite Es, Er in E'.
      assert (E3 : (p ++ [60]) ++ x ++ y = (pre' ++ 60 :: w') ++ x' ++ r).
      { rewrite <- !app_assoc. simpl. rewrite <- app_assoc in E'. simpl in E'. exact E'. }
      destruct (same_place _ _ _ _ _ E3 Hp Hl) as [Ep Ex].
      assert (w' = []).
      { destruct w' as [|c w'] using rev_ind; auto. exfalso.
        change (pre' ++ 60 :: w' ++ [c]) with (pre' ++ (60 :: w') ++ [c]) in Ep. rewrite app_assoc in Ep.
        apply app_inj_tail in Ep. destruct Ep as [_ <-].
        apply (blank_in _ 60) in Hw'; [now apply ns60|]. apply in_app_iff. right. now left. }
      subst w'. apply Hd. rewrite Er. simpl app at 1. exists w, kw, []. rewrite app_nil_r.
      split; [|split; [auto|split; [auto|now left]]]. rewrite <- Ed. f_equal. symmetry. exact Ex.
  - apply (K [97]). intros pre rest m st evs pre' rest' st' E _ F E' F'. cbn [Fault] in *.
    destruct F' as (? & ? & r & _ & _ & _ & Hw & (q & -> & Hl)).
    rewrite (Ends [97] _ _ _ E' _ P Hl) in Hw. destruct Hw as [Hw|Hw]; [discriminate|].
    destruct Hw as (c & z & Ec & Hc). injection Ec as <- _. revert Hc. now apply not97.
  - destruct P as [Hx P].
    apply (K [955]). intros pre rest m st evs pre' rest' st' E _ F E' F'. cbn [Fault] in *.
    destruct F' as (? & ? & x & r & _ & _ & _ & Hw & He & (q & -> & Hl)).
    eapply WordGoes; eauto.
  - destruct P as [Hx P].
    apply (K [955]). intros pre rest m st evs pre' rest' st' E _ F E' F'. cbn [Fault] in *.
    destruct F' as (? & ? & x & r & _ & Hw & He & (q & -> & Hl)).
    eapply WordGoes; eauto.
  - apply (K [34]). intros pre rest m st evs pre' rest' st' E _ F E' F'. cbn [Fault] in *.
    destruct F' as (? & ? & ? & r & _ & _ & _ & _ & Hb & (q & -> & Hl)). apply Hb.
    rewrite (Ends [34] _ _ _ E' _ P Hl). now apply begins_cons.
  - apply (K [34]). intros pre rest m st evs pre' rest' st' E _ F E' F'. cbn [Fault] in *.
    destruct F as (? & ? & ? & r & _ & _ & _ & _ & Hr & (q & -> & Hl)).
    destruct F' as (? & ? & ? & r' & _ & _ & _ & _ & Hr' & (q' & -> & Hl')).
    rewrite E in E'. rewrite <- app_assoc in E'. rewrite <- app_assoc in E'. rewrite !(app_assoc pre), (app_assoc pre') in E'.
    destruct (same_place _ _ _ _ _ E' Hl Hl') as [_ X]. injection X as X. apply Hr'. rewrite <- X.
    apply in_app_iff. right. now left.
  - now apply missing_goes.
Qed.
Lemma error_stays_iff s l e : from_str s (Options l None) = TErr (ParseError e) ->
  ((forall t, from_str (s ++ t) (Options l None) = TErr (ParseError e)) <-> ~ Pending s e).
Proof.
  intros H. split.
  - intros A P. destruct (pending_goes _ _ _ H P) as [t Ht]. auto.
  - intros P t. apply error_stays; auto. discriminate.
Qed.
