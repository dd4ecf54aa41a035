(** Proofs for C71: elements that are not closed. *)
From Coq Require Import String ZArith List Bool Lia.
From stdpp Require Import gmap.
From Verif Require Import Text Event Input Parse Selector Machine Template StreamBase.
From Verif Require Import SpecText SpecAttr SpecParse SpecTree SpecTransform SpecOps SpecLaws SpecSelectLaws SpecLocal SpecBroken.
From Verif Require Import TextProofs AttrProofs AttrProofs2 Trace TraceProofs StreamProofs StreamProofs2 StreamProofs3.
From Verif Require Import PipelineProofs TreeProofs MiscProofs.
From Verif Require Import ErrorProofs SelectionProofs OpProofs LawProofs LawProofs2 LawProofs3 SelectLawProofs LocalProofs.
From Verif Require Import BrokenProofs.
Local Open Scope nat_scope.

Definition anything (h : heap) : Prop := True.
Lemma post_anything h : Post anything h.
Proof. now apply post_intro. Qed.

Lemma strm_forget elem Q t s evs h : Strm elem Q t s evs h -> Strm true anything t s evs h.
Proof.
  revert s evs h. apply (strm_ind _ _ _ (fun s evs h => Strm true anything t s evs h)).
  intros s evs h He Hs. constructor; [intros; apply post_anything|]. intros hf Hd.
  destruct (Hs hf Hd) as (s' & h' & r & E & Hd' & HA). exists s', h', r. split; [exact E|split; [exact Hd'|]].
  destruct HA as [[X Y]|ev evs' E1 E3 [X Y]|E1 E3 X|err E1 E3].
  - now apply After_noop.
  - eapply After_event; eauto.
  - apply After_end; auto. apply post_anything.
  - now apply After_err.
Qed.

(** An element that is never closed lasts until the end of its source. *)
Lemma strm_until_open elem Q s evs h l tag : h !! l = None -> Strm elem Q None s evs h ->
  forall level, d_until tag level evs = None ->
  Strm true anything None (SSingle (Some (SEUntilClose tag (SShared l) level))) evs (<[l := Cell s]> h).
Proof.
  intros Hl Hs. revert s evs h Hs Hl.
  apply (strm_ind _ _ _ (fun s evs h => h !! l = None -> forall level, d_until tag level evs = None ->
    Strm true anything None (SSingle (Some (SEUntilClose tag (SShared l) level))) evs (<[l := Cell s]> h))).
  intros s evs h He Hs Hl level Hu. constructor; [intros; apply post_anything|]. intros hf Hd.
  destruct (shared_step _ _ _ _ Hl Hs hf Hd) as (s' & h' & r & E & Hd' & -> & s1 & h1 & -> & Hl1 & HA).
  destruct HA as [[X Y]|ev evs' E1 E3 [X Y]|E1 E3 X|err E1 E3].
  - eexists _, _, _. split; [ne_by E|split; [exact Hd'|]]. apply After_noop. auto.
  - subst evs. cbn [d_until] in Hu.
    assert (exists level', d_until tag level' evs' = None /\
      Ev (fun m => ne (run m) (hf ∪ <[l := Cell s]> h) (SSingle (Some (SEUntilClose tag (SShared l) level))))
         (hf ∪ <[l := Cell s1]> h1) (SSingle (Some (SEUntilClose tag (SShared l) level')), inl (Some ev)))
      as (level' & Hu' & E').
    { destruct E as [n Hn].
      destruct (is_opening_tag_for ev tag) eqn:Eo; [|destruct (is_closing_tag_for ev tag) eqn:Ec].
      - exists (S level). split; [now destruct (d_until tag (S level) evs') as [[]|]|].
        apply ne_intro. exists n. intros m Hm. cbn [ne_body]. unfold on_ok. rewrite Hn by auto.
        cbn [obind]. rewrite Eo. reflexivity.
      - destruct level as [|level]; [discriminate|].
        exists level. split; [now destruct (d_until tag level evs') as [[]|]|].
        apply ne_intro. exists n. intros m Hm. cbn [ne_body]. unfold on_ok. rewrite Hn by auto.
        cbn [obind]. rewrite Eo, Ec. reflexivity.
      - exists level. split; [now destruct (d_until tag level evs') as [[]|]|].
        apply ne_intro. exists n. intros m Hm. cbn [ne_body]. unfold on_ok. rewrite Hn by auto.
        cbn [obind]. rewrite Eo, Ec. reflexivity. }
    eexists _, _, _. split; [exact E'|split; [exact Hd'|]]. eapply After_event; eauto.
  - eexists _, _, _. split; [ne_by E|split; [exact Hd'|]]. apply After_end; auto. apply post_anything.
  - discriminate.
Qed.

(** The contents are not followed by their closing tag. *)
Definition Broken (tag : ident) (tail : list event) : Prop :=
  tail = [] \/ exists c tail', tail = ClosingTag c :: tail' /\ ident_eqb c tag = false.

Lemma strm_open_single elem Q s t a K rest h l :
  h !! l = None -> Strm elem Q None s (events K ++ rest) h -> Proper K -> Broken t rest ->
  exists tail, Broken t tail /\
    Strm true anything None (SSingle (Some (SEStart (OpeningTag t a) (SShared l))))
      (OpeningTag t a :: events K ++ tail) (<[l := Cell s]> h).
Proof.
  intros Hl Hs HK Hb.
  assert (exists tail, Broken t tail /\
    Strm true anything None (SSingle (Some (SEUntilClose t (SShared l) 0))) (events K ++ tail) (<[l := Cell s]> h))
    as (tail & Hb' & Hs').
  { pose proof (until_events_skip t K 0 rest HK) as Hu.
    pose proof (strm_until elem Q None s _ h l t Hl Hs 0) as Hun.
    destruct (d_until t 0 rest) as [[el r]|] eqn:E.
    - rewrite Hu in Hun. exists el. split; [|eapply strm_forget; exact Hun].
      destruct Hb as [->|(c & tail' & -> & Hc)]; [discriminate|]. cbn [d_until] in E.
      unfold is_opening_tag_for, is_closing_tag_for in E. cbn [opening_tag_name] in E. rewrite Hc in E.
      destruct (d_until t 0 tail') as [[el' r']|]; [|discriminate]. injection E as <- <-.
      right. eauto.
    - exists rest. split; [exact Hb|]. now apply (strm_until_open elem Q). }
  exists tail. split; [exact Hb'|]. constructor; [discriminate|]. intros hf Hd.
  eexists _, _, _. split; [ne_now|split; [exact Hd|]].
  eapply After_event; [reflexivity|discriminate|exact Hs'].
Qed.

Lemma pk_peek_end Q sp h : Pk Q None sp [] h ->
  StepF PK h sp (fun sp' h' r => r = inl None).
Proof.
  intros (s & [[-> Hs]|(ev & evs' & -> & E & Hnn & Hs)]) hf Hd; [|discriminate].
  destruct (strm_sk _ _ _ _ _ _ Hs hf Hd) as (s' & h' & r & [n Hn] & Hd' & HA).
  destruct HA as [ev evs' E1 E3 X|E1 E3 X|err E1 E3]; try discriminate.
  exists (SPeek s' None), h', (inl None). split; [|split; [exact Hd'|reflexivity]].
  exists n. intros m Hm. cbn [peek]. unfold on_ok. rewrite Hn by auto. reflexivity.
Qed.

Lemma strm_current_broken Q Q' tag l : forall kids sp h level st tail,
  h !! l = None -> Pk Q None sp (kids ++ tail) h -> level = length st ->
  nest st kids = Some [] -> Broken tag tail ->
  Strm false Q' (Some (missing_close tag)) (SCurrentContent (Some (tag, l, level))) kids
    (<[l := Cell sp]> h).
Proof.
  induction kids as [|ev kids IH]; intros sp h level st tail Hl Hp Hlev Hn Hb;
    (constructor; [discriminate|]); intros hf Hd.
  - simpl in Hn. injection Hn as ->. simpl in Hlev. subst level. simpl in Hp.
    destruct Hb as [->|(c & tail' & -> & Hc)].
    + destruct (with_cell_step _ _ _ _ _ Hl (pk_peek_end _ _ _ Hp) hf Hd)
        as (s' & h' & r & [n Hk] & Hd' & -> & s1 & h1 & -> & Hl1 & ->).
      eexists (SCurrentContent None), _, (inr (missing_close tag)).
      split; [|split; [exact Hd'|now apply After_err]].
      apply ne_intro. exists n. intros m Hm. cbn [ne_body Nat.eqb negb].
      unfold on_ok at 1. rewrite Hk by auto. reflexivity.
    + destruct (with_cell_step _ _ _ _ _ Hl (pk_peek _ _ _ _ _ Hp) hf Hd)
        as (s' & h' & r & [n Hk] & Hd' & -> & s1 & h1 & -> & Hl1 & -> & _ & s2 & -> & Hs2).
      assert (Pk Q None (SPeek s2 (Some (ClosingTag c))) (ClosingTag c :: tail') h1) as Hp2.
      { exists s2. right. exists (ClosingTag c), tail'. split_and!; auto. }
      destruct (shared_step _ _ _ _ Hl1 (pk_next _ _ _ _ _ Hp2) hf Hd')
        as (s3 & h3 & r & [n3 Hk3] & Hd3 & -> & s4 & h4 & -> & Hl4 & HA).
      destruct HA as [ev1 evs' E1 E3 X|E1 E3 X|err E1 E3]; try discriminate. injection E1 as <- <-.
      eexists (SCurrentContent None), _, (inr (missing_close tag)).
      split; [|split; [exact Hd3|now apply After_err]].
      apply ne_intro. exists (max n n3). intros m Hm. cbn [ne_body Nat.eqb negb].
      unfold on_ok at 1. rewrite Hk by lia. cbn [obind is_closing_tag_for]. rewrite Hc.
      unfold on_ok. rewrite Hk3 by lia. reflexivity.
  - simpl in Hn. destruct (nest1 st ev) as [st1|] eqn:En; [|discriminate].
    pose proof (nest1_adjust _ _ _ En) as Ha. rewrite <- Hlev in Ha.
    assert (forall sp1 h1, h1 !! l = None -> Pk Q None sp1 (kids ++ tail) h1 ->
      Strm false Q' (Some (missing_close tag)) (SCurrentContent (Some (tag, l, length st1))) kids
        (<[l := Cell sp1]> h1)) as Hrec.
    { intros sp1 h1 Hl1 Hp1. apply (IH sp1 h1 (length st1) st1 tail); auto. }
    assert (ev <> Noop) as Hnn by (intros ->; discriminate).
    simpl in Hp.
    destruct (Nat.eqb level 0) eqn:El.
    + destruct (with_cell_step _ _ _ _ _ Hl (pk_peek _ _ _ _ _ Hp) hf Hd)
        as (s' & h' & r & [n Hk] & Hd' & -> & s1 & h1 & -> & Hl1 & -> & _ & s2 & -> & Hs2).
      assert (Pk Q None (SPeek s2 (Some ev)) (ev :: kids ++ tail) h1) as Hp2.
      { exists s2. right. eauto 10. }
      destruct (current_next Q None _ ev (kids ++ tail) h1 l tag level (length st1)
                  (StreamBase.After Q' (Some (missing_close tag)) (Strm false Q' (Some (missing_close tag))) (ev :: kids))
                  Hl1 Hp2 Ha) with (hf := hf) as (s3 & h3 & r3 & [n3 Hn3] & Hd3 & HZ); auto.
      { intros sp1 h2 Hl2 Hp3. eapply After_event; eauto. }
      exists s3, h3, r3. split; [|auto]. apply ne_intro. exists (max n n3). intros m Hm.
      cbn [ne_body]. rewrite El. cbn [negb]. unfold on_ok at 1. rewrite Hk by lia. cbn [obind].
      assert (is_closing_tag_for ev tag = false) as ->.
      { apply Nat.eqb_eq in El. rewrite El in Hlev. destruct st; [|discriminate].
        destruct ev; try reflexivity. discriminate. }
      apply Hn3. lia.
    + destruct (current_next Q None _ ev (kids ++ tail) h l tag level (length st1)
                  (StreamBase.After Q' (Some (missing_close tag)) (Strm false Q' (Some (missing_close tag))) (ev :: kids))
                  Hl Hp Ha) with (hf := hf) as (s3 & h3 & r3 & [n3 Hn3] & Hd3 & HZ); auto.
      { intros sp1 h2 Hl2 Hp3. eapply After_event; eauto. }
      exists s3, h3, r3. split; [|auto]. apply ne_intro. exists n3. intros m Hm.
      cbn [ne_body]. rewrite El. cbn [negb]. apply Hn3. lia.
Qed.

(** Looking at the contents is then as if the element had failed after them. *)
Lemma strm_contents_broken Q Q' s tag attrs kids tail h g cb e' :
  Strm true Q None s (OpeningTag tag attrs :: kids ++ tail) h ->
  nest [] kids = Some [] -> Broken tag tail ->
  Strict g false -> Builds g (build_content cb) false e' ->
  let y := d_contents g (OpeningTag tag attrs :: kids, Some (missing_close tag)) in
  Strm true Q' (snd y) (select_content_new s cb) (fst y) h.
Proof.
  intros Hs Hn Hb Hstrict Hbuild y.
  assert (Good false (kids, Some (missing_close tag))) as Hgood.
  { unfold Good. cbn [fst snd]. eauto. }
  pose proof (Hstrict _ _ Hgood) as Hsome.
  subst y. cbn [d_contents]. set (y := g (kids, Some (missing_close tag))) in *.
  constructor; [intros _ _; simpl; discriminate|]. intros hf Hd.
  destruct (strm_sk _ _ _ _ _ _ Hs hf Hd) as (s' & h' & r & E & Hd' & HA).
  destruct HA as [ev evs' E1 E3 X|E1 E3 X|err E1 E3]; try discriminate. injection E1 as <- <-.
  apply strm_expand in X.
  pose proof (fresh_loc_none (hf ∪ h')) as Hfresh.
  apply lookup_union_None in Hfresh as [Hfl Hl].
  set (l := fresh_loc (hf ∪ h')) in *.
  assert (Strm false anything (Some (missing_close tag)) (SCurrentContent (Some (tag, l, 0))) kids
            (<[l := Cell (SPeek (SExpand (Some (XEmitStream s'))) None)]> h')) as Hcur.
  { apply (strm_current_broken Q anything tag l kids _ h' 0 [] tail); auto. eexists. eauto. }
  destruct (Hbuild _ _ _ _ _ Hcur Hgood hf) as (h2 & s2 & Eb & Hd2 & Hs2).
  { apply map_disjoint_insert_r. auto. }
  fold y in Hs2.
  exists (SSelectContent (Some (SCContent l s2 tag))), h2, (inl (Some (OpeningTag tag attrs))).
  split; [|split; [exact Hd2|]].
  - apply (expand_sk _ _ _ _ _ (SExpand (Some (XEmitStream s'))) (inl (Some (OpeningTag tag attrs))))
      in E; [|congruence|reflexivity].
    destruct E as [n Hk]. apply ne_intro. exists n. intros m Hm. cbn [ne_body].
    unfold select_content_new. cbn [ne_body]. unfold on_ok. rewrite Hk by auto. cbn [obind].
    fold l. rewrite insert_union_r by auto. rewrite Eb. reflexivity.
  - cbn [tapp fst snd]. rewrite (surjective_pairing y). cbn [tapp fst snd].
    eapply After_event; [reflexivity|congruence|].
    destruct y as [ye [err|]]; [|now destruct Hsome]. cbn [fst snd] in *.
    change (Strm true Q' (snd (tapp (ye, Some err) ([ClosingTag tag], None))) (SSelectContent (Some (SCContent l s2 tag)))
              (fst (tapp (ye, Some err) ([ClosingTag tag], None))) h2).
    apply (strm_seq (fun s => SSelectContent (Some (SCContent l s tag)))
             (SSelectContent (Some (SCClose l tag))) e' anything).
    + intros. now apply content_step.
    + exact Hs2.
    + discriminate.
    + discriminate.
Qed.

(** The calls that look at the contents. *)
Lemma in_contents_build o e' : InContents o -> typed_op true o e' -> Well o ->
  exists g cb e1 (C : strm -> strm), Strict g false /\ Builds g (build_content cb) false e1 /\
    (forall x, d_op o x = d_contents g x) /\
    (forall h s, build_op o h s = Done h (C s)) /\
    forall Q t s evs h, Strm true Q t (select_content_new s cb) evs h -> Strm e' Q t (C s) evs h.
Proof.
  intros Ho Ht Hw. pose proof (well_args _ Hw) as Hargs.
  assert (forall p e e', Sub o p -> typed e p e' -> Builds (d_pipe p) (build p) e e') as Hp.
  { intros p e1 e2 Hs Hp. apply builds_pipe; auto. eapply well_sub; eauto. }
  assert (forall p e e', Sub o p -> typed e p e' -> Keeps (d_pipe p) e e') as Hk.
  { intros p e1 e2 Hs Hk. eapply keeps_pipe; eauto. eapply well_sub; eauto. }
  assert (forall bs e, (forall p, In p bs -> Sub o p) ->
    Forall (fun p => exists e', typed e p e') bs ->
    Builds (d_repeat (map (fun p x => d_pipe p x) bs))
      (fun h s => Done h (SRepeat (Some (RCollect s bs)))) e false /\
    Keeps (d_repeat (map (fun p x => d_pipe p x) bs)) e false) as Hrep.
  { intros bs e0 Hs Hf. rewrite Forall_forall in Hf. split.
    - apply builds_repeat. intros p Hin. destruct (Hf p) as [e1 Hp1]; [now apply elem_of_list_In|].
      exists e1. apply Hp; auto.
    - apply keeps_repeat. intros g Hg. apply in_map_iff in Hg as (p & <- & Hin).
      destruct (Hf p) as [e1 Hp1]; [now apply elem_of_list_In|].
      eapply keeps_weaken. eapply Hk; eauto. }
  destruct Ho; inversion Ht; subst.
  - exists (d_pipe p), (CBUser p), e'0, (fun s => select_content_new s (CBUser p)). split_and!; auto.
    + eapply keeps_strict. eapply keeps_weaken. apply Hk; simpl; eauto.
    + apply Hp; simpl; auto.
  - match goal with Hx : forall k, exists e, typed true (b k) e |- _ => rename Hx into Hty end.
    exists (fun x => d_select (length (fst x)) m (fun k => d_pipe (b k)) direct 0 0 (fst x) (snd x)),
      (CBSelect direct m b), false, (fun s => fallible_new (inl (select_content_new s (CBSelect direct m b)))).
    split_and!; auto.
    + eapply keeps_strict. apply keeps_select. intros k. destruct (Hty k) as [e1 He1]. eapply keeps_weaken.
      apply Hk; simpl; eauto.
    + apply builds_select. intros k. destruct (Hty k) as [e1 He1]. split.
      * eapply keeps_weaken. apply Hk; simpl; eauto.
      * exists e1. apply Hp; simpl; eauto.
    + intros. now apply strm_fallible.
  - exists (fun x => d_select_once m (d_pipe p) direct 0 (fst x) (snd x)),
      (CBSelectOnce direct m p), false, (fun s => fallible_new (inl (select_content_new s (CBSelectOnce direct m p)))).
    split_and!; auto.
    + eapply keeps_strict. apply keeps_select_once. eapply keeps_weaken. apply Hk; simpl; eauto.
    + eapply builds_select_once.
      * eapply keeps_weaken. apply Hk; simpl; eauto.
      * apply Hp; simpl; eauto.
    + intros. now apply strm_fallible.
  - exists d_remove, CBRemove, false, (fun s => select_content_new s CBRemove). split_and!; auto.
    + eapply keeps_strict, keeps_remove.
    + apply builds_remove.
  - exists (fun x => tapp (d_content c) x), (CBPrepend (into_stream c)), false,
      (fun s => select_content_new s (CBPrepend (into_stream c))). split_and!; auto.
    + eapply keeps_strict, keeps_prepend; auto.
    + now apply builds_prepend, content_no_noop.
  - exists (fun x => tapp x (d_content c)), (CBAppend (into_stream c)), false,
      (fun s => select_content_new s (CBAppend (into_stream c))). split_and!; auto.
    + eapply keeps_strict, keeps_append; auto.
    + now apply builds_append, content_no_noop.
  - exists (fun x => tapp (d_content c) (d_remove x)), (CBReplace (into_stream c)), false,
      (fun s => select_content_new s (CBReplace (into_stream c))). split_and!; auto.
    + eapply keeps_strict, keeps_replace; auto.
    + now apply builds_replace, content_no_noop.
  - exists (d_repeat (map (fun p x => d_pipe p x) bs)), (CBRepeat bs), false,
      (fun s => select_content_new s (CBRepeat bs)). split_and!; auto.
    + eapply keeps_strict. apply Hrep; auto.
    + apply (Hrep bs); auto.
  - exists (d_repeat (map (fun p x => d_pipe p x) (b :: bs))), (CBRepeat (b :: bs)), false,
      (fun s => SRepeatOrElse (Some (ROEStart true s (b :: bs) p))). split_and!; auto.
    + eapply keeps_strict. apply (Hrep (b :: bs)); simpl; auto.
    + apply (Hrep (b :: bs)); simpl; auto.
    + intros Q t s evs h Hs. eapply strm_noop; [|apply strm_roe_repeat; eapply strm_false; exact Hs].
      intros H0. ne_now.
Qed.

(** A builder that begins with such a call, for an element that is not closed. *)
Definition open_trace (p : pipeline) (t : ident) (a : list attribute) (K : list tree) : trace :=
  d_pipe p (OpeningTag t a :: events K, Some (missing_close t)).

Lemma good_open t a K : ProperTree (Elem t a K t) -> Good true (OpeningTag t a :: events K, Some (missing_close t)).
Proof.
  intros Hp. assert (nest [] (tree_events (Elem t a K t)) = Some []) as Hn.
  { rewrite <- events_single. apply nest_events. apply proper_cons. auto using proper_nil. }
  assert (Proper K) as HK by (inversion Hp; subst; auto).
  unfold Good. simpl. rewrite tree_events_elem in Hn. simpl in Hn.
  destruct (valid_start t a); [|discriminate]. split; [reflexivity|]. exists []. now apply nest_events.
Qed.
Lemma open_fails o p e t a K : ProperTree (Elem t a K t) -> typed true (o :: p) e -> WellP (o :: p) ->
  exists err, snd (open_trace (o :: p) t a K) = Some err.
Proof.
  intros Hp Ht Hw. destruct (snd (open_trace (o :: p) t a K)) as [err|] eqn:E; [eauto|].
  exfalso. refine (proj2 (keeps_pipe (o :: p) true e _ _ _ (good_open t a K Hp)) _ E); auto.
Qed.
Lemma open_error p e t a K err : ProperTree (Elem t a K t) -> typed true p e -> WellP p -> ElementSelectors p ->
  snd (open_trace p t a K) = Some err ->
  err = missing_close t \/ exists o, Occurs p o /\ SuppliesError o err.
Proof.
  intros Hp Ht Hw Hs E.
  destruct (from_pipe p true e Ht Hw Hs _ err (good_open t a K Hp) E) as [[= <-]|H]; auto.
Qed.

Lemma build_open o p e s t a K tail h : InContents o -> typed true (o :: p) e -> WellP (o :: p) ->
  ProperTree (Elem t a K t) -> Broken t tail ->
  Strm true anything None s (OpeningTag t a :: events K ++ tail) h ->
  forall hf, hf ##ₘ h -> exists h' s', build (o :: p) (hf ∪ h) s = Done (hf ∪ h') s' /\ hf ##ₘ h' /\
    Strm e anything (snd (open_trace (o :: p) t a K)) s' (fst (open_trace (o :: p) t a K)) h'.
Proof.
  intros Ho Ht Hw Hp Hb Hs hf Hd. inversion Ht; subst. apply wellp_cons in Hw as [Hw1 Hw2].
  destruct (in_contents_build o e2 Ho H2 Hw1) as (g & cb & e1 & C & Hstrict & Hbuild & Hop & HC & HS).
  assert (Proper K) as HK by (inversion Hp; subst; auto).
  pose proof (strm_contents_broken _ anything _ _ _ _ _ _ _ _ _ Hs (nest_events _ HK) Hb Hstrict Hbuild) as Hy.
  cbv zeta in Hy. rewrite <- Hop in Hy. apply HS in Hy.
  change (build (o :: p) (hf ∪ h) s) with (obind (build_op o (hf ∪ h) s) (fun h s => build p h s)).
  rewrite HC. cbn [obind].
  pose proof (proj1 (keeps_op o true e2 H2 Hw1 _ (good_open t a K Hp))) as Hg.
  unfold open_trace. cbn [d_pipe].
  destruct (d_op o (OpeningTag t a :: events K, Some (missing_close t))) as [ye yt].
  exact (builds_pipe p e2 e H4 Hw2 _ _ _ _ _ Hy Hg hf Hd).
Qed.

Lemma strm_once_open m direct l elem Q o p e t a K rest s h :
  InContents o -> typed true (o :: p) e -> WellP (o :: p) -> matches m (OpeningTag t a) = true ->
  ProperTree (Elem t a K t) -> Broken t rest ->
  h !! l = None -> Strm elem Q None s (OpeningTag t a :: events K ++ rest) h ->
  Strm false Q (snd (open_trace (o :: p) t a K)) (SSelectOnce l (Some (SelOScanning m (o :: p) direct 0)))
    (fst (open_trace (o :: p) t a K)) (<[l := Cell s]> h).
Proof.
  intros Ho Ht Hw Hm Hp Hb Hl Hs. destruct (open_fails o p e t a K Hp Ht Hw) as [err Herr].
  constructor; [discriminate|]. intros hf Hd.
  destruct (shared_sk _ _ _ _ _ _ _ Hl Hs hf Hd) as (s' & h' & r & E & Hd' & HA).
  destruct HA as [ev evs' E1 E3 X|E1 E3 X|err' E1 E3]; try discriminate.
  injection E1 as <- <-. destruct X as (-> & s1 & h1 & -> & Hl1 & Hs1).
  assert (Proper K) as HK by (inversion Hp; subst; auto).
  destruct (strm_open_single elem Q s1 t a K rest h1 l Hl1 Hs1 HK Hb) as (tail & Hb' & Hsingle).
  destruct (build_open o p e _ t a K tail _ Ho Ht Hw Hp Hb' Hsingle hf Hd') as (h2 & s2 & Eb & Hd2 & Hs2).
  exists (SSelectOnce l (Some (SelOActive s2))), h2, (inl (Some Noop)). split; [|split; [exact Hd2|]].
  - destruct E as [k Hk]. apply ne_intro. exists k. intros j Hj. cbn [ne_body]. unfold on_ok.
    rewrite Hk by auto. cbn [obind].
    assert (include direct 0 && matches m (OpeningTag t a) = true) as -> by (rewrite Hm; now destruct direct).
    rewrite Eb. reflexivity.
  - apply After_noop. destruct (open_trace (o :: p) t a K) as [ye yt]. cbn [fst snd] in *. subst yt.
    change (Strm false Q (snd (tapp (ye, Some err) ([], None))) (SSelectOnce l (Some (SelOActive s2)))
              (fst (tapp (ye, Some err) ([], None))) h2).
    apply (strm_seq (fun s => SSelectOnce l (Some (SelOActive s)))
               (SSelectOnce l (Some SelOPassthrough)) e anything).
    + intros. now apply once_active_step.
    + exact Hs2.
    + discriminate.
    + discriminate.
Qed.
Lemma strm_select_open m b direct l elem Q calls o p e t a K rest s h : b calls = o :: p ->
  InContents o -> typed true (o :: p) e -> WellP (o :: p) -> matches m (OpeningTag t a) = true ->
  ProperTree (Elem t a K t) -> Broken t rest ->
  h !! l = None -> Strm elem Q None s (OpeningTag t a :: events K ++ rest) h ->
  Strm false Q (snd (open_trace (b calls) t a K)) (SSelect l m b calls direct (Some (SelScanning 0)))
    (fst (open_trace (b calls) t a K)) (<[l := Cell s]> h).
Proof.
  intros Hbk Ho Ht Hw Hm Hp Hb Hl Hs. destruct (open_fails o p e t a K Hp Ht Hw) as [err Herr].
  rewrite Hbk. constructor; [discriminate|]. intros hf Hd.
  destruct (shared_sk _ _ _ _ _ _ _ Hl Hs hf Hd) as (s' & h' & r & E & Hd' & HA).
  destruct HA as [ev evs' E1 E3 X|E1 E3 X|err' E1 E3]; try discriminate.
  injection E1 as <- <-. destruct X as (-> & s1 & h1 & -> & Hl1 & Hs1).
  assert (Proper K) as HK by (inversion Hp; subst; auto).
  destruct (strm_open_single elem Q s1 t a K rest h1 l Hl1 Hs1 HK Hb) as (tail & Hb' & Hsingle).
  destruct (build_open o p e _ t a K tail _ Ho Ht Hw Hp Hb' Hsingle hf Hd') as (h2 & s2 & Eb & Hd2 & Hs2).
  exists (SSelect l m b (S calls) direct (Some (SelActive 0 s2))), h2, (inl (Some Noop)).
  split; [|split; [exact Hd2|]].
  - destruct E as [k Hk]. apply ne_intro. exists k. intros j Hj. cbn [ne_body]. unfold on_ok.
    rewrite Hk by auto. cbn [obind].
    assert (include direct 0 && matches m (OpeningTag t a) = true) as -> by (rewrite Hm; now destruct direct).
    rewrite Hbk, Eb. reflexivity.
  - apply After_noop. destruct (open_trace (o :: p) t a K) as [ye yt]. cbn [fst snd] in *. subst yt.
    change (Strm false Q (snd (tapp (ye, Some err) ([], None))) 
              (SSelect l m b (S calls) direct (Some (SelActive 0 s2)))
              (fst (tapp (ye, Some err) ([], None))) h2).
    apply (strm_seq (fun s => SSelect l m b (S calls) direct (Some (SelActive 0 s)))
               (SSelect l m b (S calls) direct (Some (SelScanning 0))) e anything).
    + intros. now apply active_step.
    + exact Hs2.
    + discriminate.
    + discriminate.
Qed.

Lemma unclosed_broken t rest : Unclosed t rest -> Broken t rest.
Proof.
  intros [->|(c & rest' & -> & Hc)]; [now left|]. right. exists c, rest'. split; [reflexivity|].
  destruct (ident_eqb c t) eqn:E; [|reflexivity]. now apply ident_eqb_same in E.
Qed.
Lemma open_no_noop F t a K rest : Proper F -> ProperTree (Elem t a K t) -> ~ In Noop rest ->
  ~ In Noop (events F ++ OpeningTag t a :: events K ++ rest).
Proof.
  intros HF Hp Hn. apply events_no_noop; auto. intros [H|H]; [discriminate|].
  revert H. apply events_no_noop; auto. inversion Hp; subst; auto.
Qed.

Lemma open_once T q direct m o p e F t a K rest rs out :
  WellNested T -> Offers T q (events F ++ OpeningTag t a :: events K ++ rest) -> Proper F -> ElementSelector m -> typed true (o :: p) e -> ValidArgs [OSelectOnce direct (inl m) (o :: p)] ->
  SelectsIn direct m F [] rs out -> matches m (OpeningTag t a) = true ->
  ProperTree (Elem t a K t) -> Unclosed t rest -> ~ In Noop rest -> InContents o ->
  exists err, Gives T (q ++ [OSelectOnce direct (inl m) (o :: p)]) (inr err) /\
    (ElementSelectors (o :: p) -> err = missing_close t \/ exists o', Occurs (o :: p) o' /\ SuppliesError o' err).
Proof.
  intros HT Hof HF Hm Ht Hv Hs Hma Hp Hu Hn Ho.
  assert (WellP (o :: p)) as Hw by (apply valid_args_well; eapply once_builder_valid; eauto).
  destruct (open_fails o p e t a K Hp Ht Hw) as [err Herr]. exists err. split.
  - change (inr err) with (outcome (events F ++ fst (open_trace (o :: p) t a K), Some err)).
    rewrite <- Herr.
    apply (gives_select_once T q _ direct m (o :: p) _ _ HT Hof); [now apply open_no_noop|]. intros l s0 Hs0.
    apply (strm_once_skip m (o :: p) direct l false (fun _ => True) (OpeningTag t a :: events K ++ rest))
      with (st := []); auto.
    + intros s h Hl Hsh. eapply strm_once_open; eauto using unclosed_broken.
    + now apply nest_events.
    + eapply (reach_selects_in direct m F []); eauto.
  - intros Hes. eapply open_error; eauto.
Qed.

Lemma open_select T q direct m b F t a K rest r0 :
  WellNested T -> Offers T q (events F ++ OpeningTag t a :: events K ++ rest) -> Proper F -> ElementSelector m -> ElementBuilder b -> ValidArgs [OSelect direct (inl m) b] ->
  matches m (OpeningTag t a) = true -> ProperTree (Elem t a K t) -> Unclosed t rest -> ~ In Noop rest ->
  (forall k, exists o p, b k = o :: p /\ InContents o) ->
  Gives (events F) [OSelect direct (inl m) b] r0 ->
  exists err, Gives T (q ++ [OSelect direct (inl m) b]) (followed_by r0 (inr err)) /\
    ((forall k, ElementSelectors (b k)) ->
     err = missing_close t \/ exists k o, Occurs (b k) o /\ SuppliesError o err).
Proof.
  intros HT Hof HF Hm Hb Hv Hma Hp Hu Hn Ho Hr.
  assert (forall k, WellP (b k)) as Hw.
  { intros k. apply valid_args_well; eapply select_builder_valid; eauto. }
  assert (r0 = outcome (d_select (length (events F)) m (fun k => d_pipe (b k)) direct 0 0 (events F) None)) as ->.
  { refine (proj1 (gives_iff _ _ false false _ _ _ _) Hr); auto.
    - apply good_template, well_nested_events, HF.
    - apply typed_one. constructor. exact Hb. }
  set (k := dcount (length (events F)) m direct 0 0 (events F)).
  destruct (Ho k) as (o & p & Hbk & Hok). destruct (Hb k) as [e He].
  assert (exists err, snd (open_trace (b k) t a K) = Some err) as [err Herr].
  { pose proof (Hw k) as Hwk. rewrite Hbk in He, Hwk |- *. eapply open_fails; eauto. }
  exists err. split.
  - assert (inr err = outcome (open_trace (b k) t a K)) as -> by (unfold outcome; now rewrite Herr).
    rewrite <- outcome_tapp, (surjective_pairing (tapp _ _)).
    apply (gives_select T q _ direct m b _ _ HT Hof); [now apply open_no_noop|]. intros l s0 Hs0.
    apply (strm_select_then m b (fun k => d_pipe (b k)) direct l false (fun _ => True)
             (OpeningTag t a :: events K ++ rest) (fun k => open_trace (b k) t a K) Hm) with (st := []); auto.
    + intros j. destruct (Hb j) as [e' He']. split.
      * eapply keeps_strict. eapply keeps_weaken. eapply keeps_pipe; eauto.
      * exists e'. now apply builds_pipe.
    + intros calls s h Hl Hsh. destruct (Ho calls) as (o' & p' & Hb' & Ho'). destruct (Hb calls) as [e' He'].
      pose proof (Hw calls) as Hw'. rewrite Hb' in He', Hw'.
      eapply strm_select_open; eauto using unclosed_broken.
    + now apply nest_events.
  - intros Hes. destruct (open_error (b k) e t a K err Hp He (Hw k) (Hes k) Herr) as [->|(o' & H1 & H2)]; eauto.
Qed.
