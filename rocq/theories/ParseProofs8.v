(** Adding text to a parsed template keeps its structure. *)
From Coq Require Import String List NArith Arith Bool Lia.
Import ListNotations.
From Verif Require Import Text Event Input Parse Selector Template SpecText SpecAttr SpecLocation SpecParse
  SpecRender TextProofs AttrProofs AttrProofs2 LocationProofs ParseProofs ParseProofs2 ParseProofs3
  ParseProofs4 ParseProofs5 ParseProofs6 ParseProofs7.
Local Open Scope N_scope.

(** ** Event lists whose rendering can be read back *)

Definition is_text (ev : event) : Prop := match ev with Data _ | RawData _ => True | _ => False end.
Definition NoEnd (r c : str) : Prop := forall p q, c = p ++ q -> ~ EndsRaw r q.
Definition Closes (r : str) (evs : list event) : Prop :=
  exists t evs', evs = ClosingTag t :: evs' /\ plain_name (id_str t) /\ SameName (id_str t) r.

Inductive Wr : list event -> Prop :=
| W_nil : Wr []
| W_text c evs : ~ In 60 (enc_str c) -> Wr evs -> Wr (Data c :: evs)
| W_mark ev ev' evs : Spells (display_event ev) ev' -> SameMarkup ev ev' -> After ev' None ->
    Wr evs -> Wr (ev :: evs)
| W_raw ev ev' r texts evs : Spells (display_event ev) ev' -> SameMarkup ev ev' -> After ev' (Some r) ->
    Forall is_text texts -> NoEnd r (leading texts) -> Closes r evs -> Wr evs -> Wr (ev :: texts ++ evs).

Lemma leading_texts texts evs : Forall is_text texts -> leading (texts ++ evs) = leading texts ++ leading evs.
Proof.
  induction 1 as [|ev l H _ IH]; [reflexivity|]. destruct ev; try contradiction; simpl; rewrite IH;
    now rewrite app_assoc.
Qed.
Lemma following_texts texts evs : Forall is_text texts -> following (texts ++ evs) = following evs.
Proof. induction 1 as [|ev l H _ IH]; [reflexivity|]. destruct ev; try contradiction; simpl; exact IH. Qed.
Lemma display_texts texts : Forall is_text texts -> display_events texts = leading texts.
Proof. induction 1 as [|ev l H _ IH]; [reflexivity|]. destruct ev; try contradiction; simpl; now rewrite IH. Qed.
Lemma display_app a b : display_events (a ++ b) = display_events a ++ display_events b.
Proof. induction a as [|ev a IH]; [reflexivity|]. simpl. now rewrite IH, app_assoc. Qed.

Lemma same_text x xs ys xs' ys' : SameStructure xs ys ->
  leading xs' = x ++ leading xs -> following xs' = following xs ->
  leading ys' = x ++ leading ys -> following ys' = following ys -> SameStructure xs' ys'.
Proof.
  intros H L1 F1 L2 F2. destruct H as [xs ys L Fx Fy|xs ys a b xs1 ys1 L Fx Fy Hm Hs].
  - apply same_end; congruence.
  - apply same_markup with a b xs1 ys1; congruence.
Qed.
Lemma app_ne (a b : str) : a <> [] -> a ++ b <> [].
Proof. destruct a; [congruence|discriminate]. Qed.
Lemma lex_text x s evs : ~ In 60 x -> Lex None s evs ->
  exists evs', Lex None (x ++ s) evs' /\ leading evs' = x ++ leading evs /\ following evs' = following evs.
Proof.
  intros Hx H. destruct x as [|c x]; [exists evs; auto|]. set (y := c :: x) in *.
  assert (Hy : y <> []) by discriminate.
  inversion H as [|? slice rest ev m' evs1 Hne Hi HL]; subst.
  - exists [Data (raw y)]. split; [|split; reflexivity].
    apply (L_cons None y [] (Data (raw y)) None); [now rewrite app_nil_r| |constructor].
    constructor; [now constructor|reflexivity|auto].
  - inversion Hi as [? ? ? ? Hs Ha Hd|]; subst.
    assert (Step : Begins (eq 60) (slice ++ rest) ->
      exists evs', Lex None (y ++ slice ++ rest) evs' /\ leading evs' = y ++ leading (ev :: evs1) /\
                   following evs' = following (ev :: evs1)).
    { intros B. exists (Data (raw y) :: ev :: evs1). split; [|split; reflexivity].
      apply (L_cons None y (slice ++ rest) (Data (raw y)) None); auto using app_ne.
      constructor; [now constructor|reflexivity|auto]. }
    pose proof (spells_starts _ _ Hs) as Hst. pose proof (spells_nonempty _ _ Hs) as Hsn.
    inversion Hs as [s0 Hne0 H60| | | | | |]; subst;
      try (apply Step; apply begins_app; auto; fail).
    cbn [After] in Ha. subst m'.
    exists (Data (raw (y ++ slice)) :: evs1). split; [|split; [simpl; now rewrite <- app_assoc|reflexivity]].
    rewrite app_assoc. apply (L_cons None (y ++ slice) rest _ None); auto using app_ne.
    constructor; [|reflexivity|auto]. constructor; [now apply app_ne|]. rewrite in_app_iff. tauto.
Qed.

Lemma same_markup_not_text x y : SameMarkup x y -> ~ is_text x /\ ~ is_text y /\ x <> Noop /\ y <> Noop.
Proof. destruct x, y; simpl; intros; repeat split; auto; discriminate. Qed.
Lemma same_mark x y xs ys : SameMarkup x y -> SameStructure xs ys -> SameStructure (x :: xs) (y :: ys).
Proof.
  intros H Hs. apply same_markup with x y xs ys; auto; destruct x, y; try contradiction; reflexivity.
Qed.
Lemma no_end_min r c s : NoEnd r c -> (s = [] \/ Begins (eq 60) s) ->
  forall p q, c = p ++ q -> q <> [] -> ~ EndsRaw r (q ++ s).
Proof.
  intros H Hs p q E Hq X. apply (H p q E). rewrite <- (app_nil_r q). revert X. now apply ends_raw_keep.
Qed.
Lemma wr_lex evs : Wr evs -> exists evs', Lex None (display_events evs) evs' /\ SameStructure evs evs'.
Proof.
  induction 1 as [|c evs H60 _ (e' & L & S)|ev ev' evs Hs Hm Ha _ (e' & L & S)
                 |ev ev' r texts evs Hs Hm Ha Ht Hn Hc _ (e' & L & S)].
  - exists []. split; [constructor|]. apply same_end; reflexivity.
  - destruct (lex_text _ _ _ H60 L) as (e2 & L2 & E1 & E2). exists e2. split; auto.
    apply (same_text (enc_str c) evs e'); auto.
  - exists (ev' :: e'). split; [|now apply same_mark]. cbn [display_events].
    apply L_cons with None; auto.
    + apply spells_nonempty in Hs. intros E. apply app_eq_nil in E. tauto.
    + constructor; auto. apply same_markup_not_text in Hm. destruct ev'; simpl in *; tauto.
  - exists (ev' :: RawData (raw (leading texts)) :: e'). split.
    + cbn [display_events]. rewrite display_app, (display_texts _ Ht).
      apply L_cons with (Some r).
      * apply spells_nonempty in Hs. intros E. apply app_eq_nil in E. tauto.
      * constructor; auto. apply same_markup_not_text in Hm. destruct ev'; simpl in *; tauto.
      * destruct Hc as (t & evs1 & -> & Hp & Hr).
        assert (He : EndTag (display_event (ClosingTag t)) (id_str t)) by (now apply end_tag_read).
        apply L_cons with None; auto.
        -- destruct (leading texts); discriminate.
        -- constructor.
           ++ right. exists (display_event (ClosingTag t)), (display_events evs1), (id_str t). auto.
           ++ apply no_end_min; auto. right. cbn [display_events display_event]. simpl.
              rewrite begins_cons. reflexivity.
    + apply same_mark; auto. apply (same_text (leading texts) evs e'); auto.
      * now apply leading_texts.
      * now apply following_texts.
Qed.

(** ** Nesting of edited event lists *)

Lemma run_nolimit limit ns evs ns' : Run limit ns evs ns' -> Run None ns evs ns'.
Proof. induction 1; constructor; auto; discriminate. Qed.
Lemma run_forest f : Forest f -> forall ns evs ns', Run None ns (f ++ evs) ns' -> Run None ns evs ns'.
Proof.
  induction 1 as [|ev rest Hl _ IH|t a kids t' rest Hs _ IHk _ IHr]; intros ns evs ns' H; auto.
  - simpl in H. inversion H; subst; try contradiction. auto.
  - rewrite <- app_comm_cons in H. inversion H as [|? ? ? ? ? _ HR| |? ? ? ? Hlf]; subst; [|destruct Hlf].
    rewrite <- app_assoc in HR. apply IHk in HR. rewrite <- app_comm_cons in HR.
    inversion HR as [| |? ? ? ? ? _ HR'|? ? ? ? Hlf]; subst; [|destruct Hlf]. now apply IHr.
Qed.
Lemma run_texts texts ns evs ns' : Forall is_text texts -> Run None ns evs ns' -> Run None ns (texts ++ evs) ns'.
Proof.
  induction 1 as [|ev l H _ IH]; intros; simpl; auto. apply Run_leaf; auto. destruct ev; try contradiction; exact I.
Qed.
Lemma fill_texts texts :
  Forall (fun ev => exists c, ev = Data c /\ MarkupFree (enc_str c)) texts ->
  Forall is_text texts /\ ~ In 60 (leading texts).
Proof.
  induction 1 as [|ev l (c & -> & H & _) _ [IH1 IH2]]; [split; auto|].
  split; [constructor; auto; exact I|]. simpl. rewrite in_app_iff. tauto.
Qed.
Lemma edited_leaf ev ev' : EditedTag ev ev' -> is_leaf ev -> is_leaf ev'.
Proof. destruct 1; auto. Qed.
Lemma enriched_run evs evs' : Enriched evs evs' -> forall ns ns', Run None ns evs ns' -> Run None ns evs' ns'.
Proof.
  induction 1 as [|c evs evs' _ _ IH|ev ev' evs evs' He _ IH|f evs evs' Hf _ IH|t a b texts evs evs' _ Ht _ IH];
    intros ns ns' HR; auto.
  - apply Run_leaf; [exact I|auto].
  - inversion HR as [|? t a ? ? Hl HR'|n ns1 t ? ? Hs HR'|? ? ? ? Hlf HR']; subst.
    + inversion He; subst; constructor; auto.
    + inversion He; subst; constructor; auto.
    + apply Run_leaf; auto. eapply edited_leaf; eauto.
  - apply IH. eapply run_forest; eauto.
  - inversion HR; subst. constructor; [discriminate|]. destruct (fill_texts _ Ht) as [Ht' _].
    apply run_texts; auto. constructor; auto. apply same_name_refl.
Qed.

Lemma same_structure_run_lead xs : forall ns ns', Run None ns xs ns' -> Run None ns (following xs) ns'.
Proof.
  induction xs as [|ev xs IH]; intros ns ns' H; auto.
  destruct ev; simpl; auto; inversion H; subst; auto; contradiction.
Qed.
Lemma same_structure_run xs ys : SameStructure xs ys -> Forall (fun ev => ev <> Noop) ys ->
  forall ns ns', Run None ns xs ns' -> Run None ns ys ns'.
Proof.
  assert (X : forall ys ns ns', Forall (fun ev => ev <> Noop) ys ->
            Run None ns (following ys) ns' -> Run None ns ys ns').
  { intros ys0. induction ys0 as [|ev0 ys0 IH]; intros ns ns' Hn H; auto. inversion Hn; subst.
    destruct ev0; simpl in H; auto; try congruence; apply Run_leaf; auto; exact I. }
  assert (Y : forall ys, Forall (fun ev => ev <> Noop) ys -> Forall (fun ev => ev <> Noop) (following ys)).
  { intros ys0 H0. induction H0 as [|ev0 l H H' IH]; simpl; auto. destruct ev0; auto. }
  induction 1 as [xs ys L Fx Fy|xs ys x y xs' ys' L Fx Fy Hm Hs IH]; intros Hn ns ns' HR; apply X; auto;
    apply same_structure_run_lead in HR; rewrite Fx in HR; rewrite Fy.
  - exact HR.
  - apply Y in Hn. rewrite Fy in Hn. inversion Hn; subst.
    destruct x, y; cbn [SameMarkup] in Hm; try contradiction;
      inversion HR as [|? t a ? ? Hl HR'|n ns1 t ? ? Hsn HR'|? ? ? ? Hlf HR']; subst; try contradiction;
      try (apply Run_leaf; [exact I|auto]; fail).
    + destruct Hm as [E _]. rewrite E in HR'. constructor; auto.
    + rewrite Hm in Hsn. constructor; auto.
Qed.
Lemma lex_no_noop m s evs : Lex m s evs -> Forall (fun ev => ev <> Noop) evs.
Proof.
  induction 1 as [|m slice rest ev m' evs Hne Hi _ IH]; constructor; auto.
  apply item_leaf in Hi. destruct ev; try discriminate. contradiction.
Qed.

(** ** Edited tags can be read back *)

Lemma unindent_total s : exists v, Unindent s v.
Proof. destruct (gap_split s) as (w & v & -> & G). exists v. now constructor. Qed.
Lemma forall2_diag {A} (R : A -> A -> Prop) l : Forall2 R l l -> forall a, In a l -> R a a.
Proof.
  induction l as [|x l IH]; intros H a Hi; [contradiction|]. inversion H; subst.
  destruct Hi as [<-|Hi]; auto.
Qed.
Lemma edited_read old new : Forall2 ReadBack old old -> EditedAttributes old new ->
  exists new', Forall2 ReadBack new new'.
Proof.
  intros Ho He.
  assert (In_old : forall a, In a old -> ReadBack a a).
  { intros a Hi. eapply forall2_diag; eauto. }
  induction new as [|a new IH]; [exists []; constructor|].
  destruct IH as [new' IH]. { intros b Hb. apply He. now right. }
  assert (X : exists a', ReadBack a a').
  { destruct (He a (or_introl eq_refl)) as [Hi|[Hn Hv]].
    - exists a. auto.
    - assert (Hp : plain_name (id_str (a_name a))).
      { destruct Hn as [Hn|(b & Hb & <-)]; [exact Hn|]. apply In_old in Hb. apply Hb. }
      destruct (a_value a) as [v|] eqn:Ev.
      + assert (H34 : ~ In 34 (enc_str v)).
        { destruct Hv as [Hv|(b & w & x & Hb & Eb & Hx & E)]; [apply Hv|].
          apply In_old in Hb. destruct Hb as (_ & _ & Hb). rewrite Eb in Hb.
          destruct Hb as (w' & v' & E1 & _ & H' & E2). injection E2 as ->.
          rewrite E, in_app_iff. intros [?|?]; [|now apply Hx]. now apply H'. }
        destruct (gap_split (enc_str v)) as (w & v' & E & G).
        exists (Attribute (name (id_str (a_name a))) (Some (raw v'))). split; auto. split; [reflexivity|].
        rewrite Ev. exists w, v'. split; auto. split; auto. split; [|reflexivity].
        intros Hi. apply H34. rewrite E, in_app_iff. auto.
      + exists (Attribute (name (id_str (a_name a))) None). split; auto. split; [reflexivity|].
        rewrite Ev. reflexivity. }
  destruct X as [a' X]. exists (a' :: new'). now constructor.
Qed.
Lemma read_same a a' : Forall2 ReadBack a a' -> Forall2 SameAttribute a a'.
Proof.
  induction 1 as [|x x' l l' (Hp & En & Hv) _ IH]; constructor; auto. split.
  - rewrite En. reflexivity.
  - destruct (a_value x) as [v|].
    + destruct Hv as (w & v' & E & G & _ & ->). exists v'. rewrite E. split; [now constructor|].
      change (Unindent ([] ++ v') v'). constructor. split; [constructor|apply G].
    + now rewrite Hv.
Qed.

(** the event of a start tag is one of three, and its mode is determined *)
Lemma mode_total n : (exists r, In r RawNames /\ SameName n r) \/ (forall t, In t RawNames -> ~ SameName n t).
Proof.
  assert (D : forall l, (exists r, In r l /\ SameName n r) \/ (forall t, In t l -> ~ SameName n t)).
  { induction l as [|t l [(r & Hr & Hs)|IH]].
    - right. intros t [].
    - left. exists r. split; auto. now right.
    - destruct (eq_ignore_ascii_case n t) eqn:H;
        [apply eq_ignore_spec in H|assert (~ SameName n t) by (rewrite <- eq_ignore_spec; congruence)].
      + left. exists t. split; auto. now left.
      + right. intros u [<-|Hu]; auto. }
  apply D.
Qed.

Lemma same_attr_refl a : Forall2 ReadBack a a -> Forall2 SameAttribute a a.
Proof. apply read_same. Qed.
Lemma edited_self old : EditedAttributes old old.
Proof. intros a H. now left. Qed.

Lemma edited_spells slice ev ev' : Spells slice ev -> NoBang ev -> EditedTag ev ev' ->
  match ev with Data _ => True | _ =>
    exists e2, Spells (display_event ev') e2 /\ SameMarkup ev' e2 /\ forall m, After ev m -> After e2 m
  end.
Proof.
  intros Hs Hb He.
  assert (Open : forall n a b slash, Tag slice n a slash -> no_bang n -> EditedAttributes a b ->
            exists b', Forall2 SameAttribute b b' /\
              forall slash tail, tail = (if slash : bool then [32; 47; 62] else [62]) ->
                                 Tag (60 :: display_tag (name n) b ++ tail) n b' slash).
  { intros n a b slash T Hn Hab. destruct (tag_plain _ _ _ _ T) as [Hp Ha].
    destruct (edited_read _ _ Ha Hab) as (b' & Hb'). exists b'. split; [now apply read_same|].
    intros sl tail Et. now apply (tag_read (name n) b b' tail sl). }
  assert (Ed : forall t a, (ev = VoidTag t a \/ ev = SelfClosedTag t a \/ ev = OpeningTag t a) ->
     exists b, EditedAttributes a b /\
       ((ev = VoidTag t a -> ev' = VoidTag t b) /\ (ev = SelfClosedTag t a -> ev' = SelfClosedTag t b) /\
        (ev = OpeningTag t a -> ev' = OpeningTag t b))).
  { intros t a E. destruct He as [ev|t0 a0 b H|t0 a0 b H|t0 a0 b H].
    - exists a. split; [apply edited_self|]. auto.
    - exists b. destruct E as [E|[E|E]]; try discriminate. injection E as -> ->.
      split; auto. split; [discriminate|]. split; [discriminate|auto].
    - exists b. destruct E as [E|[E|E]]; try discriminate. injection E as -> ->.
      split; auto. split; [discriminate|]. split; [auto|discriminate].
    - exists b. destruct E as [E|[E|E]]; try discriminate. injection E as -> ->.
      split; auto. split; [auto|]. split; discriminate. }
  assert (Same : ev' = ev -> SameMarkup ev ev ->
            exists e2, Spells (display_event ev') e2 /\ SameMarkup ev' e2 /\ forall m, After ev m -> After e2 m).
  { intros -> Hm. exists ev. split; auto. eapply spells_display; eauto. }
  inversion Hs as [s0 Hne H60|c Hc|w kw w' c w'' Hw Hk Hw' We Hsn Hw''|s0 n Hend|s0 n a slash T V|s0 n a T V|s0 n a T V];
    subst; auto.
  - apply Same; [inversion He; auto|reflexivity].
  - apply Same; [inversion He; auto|reflexivity].
  - apply Same; [inversion He; auto|reflexivity].
  - destruct (Ed (name n) a) as (b & Hab & E1 & _); auto. rewrite (E1 eq_refl).
    destruct (Open n a b slash T Hb Hab) as (b' & Hsa & Ht).
    exists (VoidTag (name n) b'). split; [|split; [split; auto|auto]].
    apply Sp_void with false; auto. now apply Ht.
  - destruct (Ed (name n) a) as (b & Hab & _ & E1 & _); auto. rewrite (E1 eq_refl).
    destruct (Open n a b true T Hb Hab) as (b' & Hsa & Ht).
    exists (SelfClosedTag (name n) b'). split; [|split; [split; auto|auto]].
    apply Sp_self; auto. now apply Ht.
  - destruct (Ed (name n) a) as (b & Hab & _ & _ & E1); auto. rewrite (E1 eq_refl).
    destruct (Open n a b false T Hb Hab) as (b' & Hsa & Ht).
    exists (OpeningTag (name n) b'). split; [|split; [split; auto|auto]].
    apply Sp_open; auto. now apply Ht.
Qed.

Lemma lex_forest f : Forest f -> forall m s evs, Lex m s (f ++ evs) ->
  exists m' s', Lex m' s' evs /\ (m' = None \/ (f = [] /\ m' = m)).
Proof.
  induction 1 as [|ev rest Hl _ IH|t a kids t' rest Hs _ IHk _ IHr]; intros m s evs H.
  - exists m, s. auto.
  - simpl in H. inversion H as [|? slice rest0 ? m' ? Hne Hi HL]; subst.
    destruct (IH _ _ _ HL) as (m2 & s2 & L2 & [->|[-> ->]]); eauto 6.
    exists m', s2. split; auto. left. inversion Hi as [? ? ? ? Hsp Ha|]; subst; auto.
    destruct ev; try contradiction; exact Ha.
  - rewrite <- app_comm_cons in H. inversion H as [|? slice rest0 ? m' ? Hne Hi HL]; subst.
    rewrite <- app_assoc in HL. destruct (IHk _ _ _ HL) as (m2 & s2 & L2 & _).
    rewrite <- app_comm_cons in L2. inversion L2 as [|? slice2 rest2 ? m3 ? Hne2 Hi2 HL2]; subst.
    assert (m3 = None) as -> by (inversion Hi2; subst; auto).
    destruct (IHr _ _ _ HL2) as (m4 & s4 & L4 & [->|[_ ->]]); eauto 6.
Qed.
Lemma enriched_closing t b e' : Enriched (ClosingTag t :: b) e' ->
  exists texts e1, Forall (fun ev => exists c, ev = Data c /\ MarkupFree (enc_str c)) texts /\
    e' = texts ++ ClosingTag t :: e1.
Proof.
  remember (ClosingTag t :: b) as evs eqn:E. intros H. revert E.
  induction H as [|c evs evs' Hc _ IH|ev ev' evs evs' He _ IH|f evs evs' Hf _ IH|]; intros E; try discriminate.
  - destruct (IH E) as (texts & e1 & Ht & ->). exists (Data c :: texts), e1. split; auto.
    constructor; eauto.
  - injection E as -> ->. inversion He; subst. exists [], evs'. split; [constructor|reflexivity].
  - inversion Hf as [|ev rest Hl|]; subst; try discriminate.
    + auto.
    + injection E as -> _. contradiction.
Qed.
Lemma wr_after_texts texts evs :
  Forall (fun ev => exists c, ev = Data c /\ MarkupFree (enc_str c)) texts -> Wr (texts ++ evs) -> Wr evs.
Proof.
  induction 1 as [|ev l (c & -> & _) _ IH]; intros H; auto. simpl in H.
  inversion H as [|? ? ? H'|? ? ? ? Hm|? ? ? ? ? ? Hm]; subst; auto; destruct ev'; contradiction.
Qed.
Lemma no_end_free r c : ~ In 60 c -> NoEnd r c.
Proof.
  intros H p q -> X. apply ends_raw_60, begins_eq in X. destruct X as [x ->]. apply H.
  rewrite in_app_iff. right. now left.
Qed.
Lemma end_tag_last e n : EndTag e n -> exists e', e = e' ++ [62].
Proof.
  intros (w & w' & w'' & -> & _). exists (60 :: w ++ 47 :: w' ++ n ++ w''). norm. reflexivity.
Qed.
Lemma ends_raw_cut r q b : ~ In 62 b -> EndsRaw r (q ++ b) -> EndsRaw r q.
Proof.
  intros Hb (sl & rs & n & E & He & Hn). apply app_eq_app in E. destruct E as [l [[E1 E2]|[E1 E2]]].
  - exists sl, l, n. auto.
  - destruct l as [|x l] using rev_ind.
    + rewrite app_nil_r in E1. subst. exists q, [], n. rewrite app_nil_r. auto.
    + exfalso. destruct (end_tag_last _ _ He) as [e' Ee]. rewrite Ee, app_assoc in E1.
      apply app_inj_tail in E1. destruct E1 as [_ <-]. apply Hb. rewrite E2, !in_app_iff. simpl. auto.
Qed.
Lemma no_end_around r a c b : ~ In 60 a -> NoEnd r c -> ~ In 60 b -> ~ In 62 b -> NoEnd r (a ++ c ++ b).
Proof.
  intros Ha Hc Hb Hb' p q E X.
  assert (C : forall p q, c ++ b = p ++ q -> ~ EndsRaw r q).
  { clear E X p q. intros p q E X. apply app_eq_app in E. destruct E as [l [[E1 E2]|[E1 E2]]].
    - subst. apply ends_raw_cut in X; auto. now apply (Hc p l).
    - apply (no_end_free r b Hb l q); auto. }
  apply app_eq_app in E. destruct E as [l [[E1 E2]|[E1 E2]]].
  - (* q starts within a *) subst a.
    destruct l as [|x l].
    + simpl in E2. subst q. now apply (C [] (c ++ b)).
    + apply ends_raw_60, begins_eq in X. destruct X as [y X]. rewrite E2 in X. injection X as -> _.
      apply Ha. rewrite in_app_iff. right. now left.
  - now apply (C l q).
Qed.
Lemma item_raw_no_end r slice rest ev m' : Item (Some r) slice rest ev m' -> NoEnd r slice.
Proof.
  intros H. inversion H as [|? ? ? _ Hm]; subst. intros p q E X.
  destruct q as [|c q]; [now apply ends_raw_60, begins_nil in X|].
  apply (Hm p (c :: q) E); [discriminate|].
  destruct X as (sl & rs & n & -> & He & Hn). exists sl, (rs ++ rest), n. split; auto. now rewrite <- app_assoc.
Qed.
Lemma closing_plain m s t evs : Lex m s (ClosingTag t :: evs) -> plain_name (id_str t).
Proof.
  intros H. inversion H as [|? slice rest ? m' ? Hne Hi HL]; subst.
  inversion Hi as [? ? ? ? Hs|]; subst. inversion Hs as [| | |? n (w & w' & w'' & _ & _ & _ & _ & Hn)| | |]; subst.
  eapply name_plain; eauto.
Qed.

(** the body of an edited raw element *)
Definition RawBody (r : str) (evs : list event) : Prop :=
  exists texts tail, evs = texts ++ tail /\ Forall is_text texts /\ NoEnd r (leading texts) /\
                     Closes r tail /\ Wr tail.
Lemma free_texts texts :
  Forall (fun ev => exists c, ev = Data c /\ MarkupFree (enc_str c)) texts -> ~ In 62 (leading texts).
Proof.
  induction 1 as [|ev l (c & -> & _ & H & _) _ IH]; [auto|]. simpl. rewrite in_app_iff. tauto.
Qed.

Lemma wr_texts texts evs :
  Forall (fun ev => exists c, ev = Data c /\ MarkupFree (enc_str c)) texts -> Wr evs -> Wr (texts ++ evs).
Proof.
  induction 1 as [|ev l (c & -> & H & _) _ IH]; intros W; auto. simpl. constructor; auto.
Qed.
Lemma enriched_wr evs evs' : Enriched evs evs' -> Forall NoBang evs ->
  (forall s ns, Lex None s evs -> Run None ns evs [] -> Wr evs') /\
  (forall s r n ns, In r RawNames -> Lex (Some r) s evs -> Run None (n :: ns) evs [] -> RawBody r evs').
Proof.
  induction 1 as [|c evs evs' Hc _ IH|ev ev' evs evs' He Hen IH|f evs evs' Hf Hen IH|t a b texts evs evs' Hab Ht Hen IH];
    intros Hb.
  - split; [intros; constructor|]. intros s r n ns _ _ HR. inversion HR.
  - destruct (IH Hb) as [IHa IHb]. split.
    + intros s ns HL HR. constructor; [apply Hc|eauto].
    + intros s r n ns Hr HL HR. destruct (IHb s r n ns Hr HL HR) as (tx & tail & -> & H1 & H2 & H3 & H4).
      exists (Data c :: tx), tail. split; [reflexivity|]. split; [constructor; auto; exact I|].
      split; auto. simpl. replace (leading tx) with (leading tx ++ []) by apply app_nil_r.
      apply no_end_around; auto. apply Hc.
  - inversion Hb as [|? ? Hb1 Hb2]; subst. destruct (IH Hb2) as [IHa IHb]. split.
    + intros s ns HL HR. inversion HL as [|? slice rest ? m' ? Hne Hi HL']; subst.
      inversion Hi as [? ? ? ? Hs Ha Hd|]; subst.
      assert (HR' : exists ns', Run None ns' evs [] /\ (m' <> None -> exists n ns'', ns' = n :: ns'')).
      { inversion HR as [|? t a ? ? Hl HR'|n ns1 t ? ? Hsn HR'|? ? ? ? Hlf HR']; subst; eexists; split; eauto;
          intros X; try (exfalso; apply X; exact Ha).
        exfalso. apply X. destruct ev; try contradiction; exact Ha. }
      destruct HR' as (ns' & HR' & Hns').
      pose proof (edited_spells _ _ _ Hs Hb1 He) as Hed.
      assert (Mark : (exists e2, Spells (display_event ev') e2 /\ SameMarkup ev' e2 /\
                        forall m, After ev m -> After e2 m) -> Wr (ev' :: evs')).
      { intros (e2 & Hs2 & Hm2 & Ha2). destruct m' as [r|].
        - destruct Hns' as (n & ns2 & ->); [discriminate|].
          destruct (IHb rest r n ns2) as (tx & tail & -> & H1 & H2 & H3 & H4); auto.
          { pose proof (item_good _ _ _ _ _ Hi) as G. exact G. }
          eapply W_raw; eauto.
        - eapply W_mark; eauto. }
      destruct ev; try (apply Mark; exact Hed; fail). inversion He; subst. cbn [After] in Ha. subst m'.
      inversion Hs; subst. constructor; eauto.
    + intros s r n ns Hr HL HR. inversion HL as [|? slice rest ? m' ? Hne Hi HL']; subst.
      pose proof (item_raw_no_end _ _ _ _ _ Hi) as Hne2.
      inversion Hi as [|? ? ? Hend Hmin]; subst. inversion He; subst.
      inversion HR as [| | |? ? ? ? _ HR']; subst.
      destruct Hend as [->|Hend].
      { inversion HL' as [|? ? ? ? ? ? Hx]; subst; [inversion HR'|congruence]. }
      destruct Hend as (sl & rs & n' & -> & Het & Hsn). destruct (lex_end_tag _ _ _ _ Het HL') as [b ->].
      destruct (enriched_closing _ _ _ Hen) as (tx & e1 & Htx & ->).
      destruct (fill_texts _ Htx) as [Htx1 Htx2]. pose proof (free_texts _ Htx) as Htx3.
      exists (RawData (raw slice) :: tx), (ClosingTag (name n') :: e1). split; [reflexivity|].
      split; [constructor; auto; exact I|]. split.
      { apply (no_end_around r [] slice (leading tx)); auto. }
      split.
      { exists (name n'), e1. split; auto. split; auto. eapply closing_plain; eauto. }
      apply (wr_after_texts tx); auto. eapply IHa; eauto.
  - apply Forall_app in Hb. destruct Hb as [_ Hb]. destruct (IH Hb) as [IHa IHb]. split.
    + intros s ns HL HR. destruct (lex_forest _ Hf _ _ _ HL) as (m & s' & L & [->|[_ ->]]);
        apply run_forest in HR; eauto.
    + intros s r n ns Hr HL HR. pose proof (run_forest _ Hf _ _ _ HR) as HR'.
      inversion Hf as [|ev rest Hl Hrest|]; subst.
      * eauto.
      * rewrite <- app_comm_cons in HL. inversion HL as [|? slice rest' ? m' ? Hne Hi HL']; subst.
        inversion Hi as [|? ? ? Hend Hmin]; subst.
        rewrite <- app_comm_cons in HR.
        inversion HR as [| | |? ? ? ? _ HR2]; subst.
        destruct Hend as [->|Hend].
        { inversion HL' as [|? ? ? ? ? ? Hx]; subst; [|congruence].
          match goal with K : [] = rest ++ evs |- _ => symmetry in K; apply app_eq_nil in K; destruct K; subst end.
          inversion HR'. }
        destruct Hend as (sl & rs & n' & -> & Het & Hsn). destruct (lex_end_tag _ _ _ _ Het HL') as [b Eb].
        inversion Hrest; subst; try discriminate.
        2: { injection Eb as -> _. contradiction. }
        simpl in Eb. subst evs.
        destruct (enriched_closing _ _ _ Hen) as (tx & e1 & Htx & ->).
        destruct (fill_texts _ Htx) as [Htx1 Htx2].
        exists tx, (ClosingTag (name n') :: e1). split; [reflexivity|]. split; auto.
        split; [now apply no_end_free|]. split.
        { exists (name n'), e1. split; auto. split; auto. eapply closing_plain; eauto. }
        apply (wr_after_texts tx); auto. eapply IHa; eauto.
      * rewrite <- app_comm_cons in HL. inversion HL as [|? slice rest' ? m' ? Hne Hi HL']; subst. inversion Hi.
  - inversion Hb as [|? ? Hb1 Hb2]; subst. destruct (IH Hb2) as [IHa _]. split.
    + intros s ns HL HR. inversion HL as [|? slice rest ? m' ? Hne Hi HL']; subst.
      inversion Hi as [? ? ? ? Hs Ha Hd|]; subst.
      inversion HR as [| | |? ? ? ? _ HR']; subst.
      cbn [After] in Ha. subst m'. specialize (IHa _ _ HL' HR').
      inversion Hs as [| | | | |s0 n a0 T V|]; subst.
      destruct (tag_plain _ _ _ _ T) as [Hp Hrb]. destruct (edited_read _ _ Hrb Hab) as (b' & Hb').
      pose proof (tag_read (name n) b b' [62] false Hp Hb1 Hb' eq_refl) as T'.
      assert (Hs' : Spells (display_event (OpeningTag (name n) b)) (OpeningTag (name n) b')) by (now apply Sp_open).
      assert (Hm' : SameMarkup (OpeningTag (name n) b) (OpeningTag (name n) b')).
      { split; auto. now apply read_same. }
      assert (Hcl : Wr (ClosingTag (name n) :: evs')).
      { apply W_mark with (ClosingTag (name n)); try reflexivity; auto. constructor. now apply end_tag_read. }
      destruct (fill_texts _ Ht) as [Ht1 Ht2].
      destruct (mode_total n) as [(r & Hr & Hn)|Hn].
      * eapply W_raw with (r := r); eauto.
        -- split; auto.
        -- now apply no_end_free.
        -- exists (name n), evs'. auto.
      * eapply W_mark; eauto. now apply wr_texts.
    + intros s r n ns Hr HL HR. inversion HL as [|? slice rest ? m' ? Hne Hi HL']; subst. inversion Hi.
Qed.

Lemma enriched_document limit s evs evs' : Document limit s evs -> Forall NoBang evs -> Enriched evs evs' ->
  exists evs'', Document None (display_events evs') evs'' /\ SameStructure evs' evs''.
Proof.
  intros D Hb He. apply document_iff in D. destruct D as [L R]. apply run_nolimit in R.
  destruct (enriched_wr _ _ He Hb) as [W _]. specialize (W _ _ L R).
  destruct (wr_lex _ W) as (e2 & L2 & S2). exists e2. split; auto. apply document_iff. split; auto.
  apply (same_structure_run _ _ S2).
  - eapply lex_no_noop; eauto.
  - eapply enriched_run; eauto.
Qed.
Lemma enriched_parses s o evs evs' : from_str s o = TOk evs -> Forall NoBang evs -> Enriched evs evs' ->
  exists evs'', from_str (display_events evs') (Options None None) = TOk evs'' /\ SameStructure evs' evs''.
Proof.
  intros H Hb He. apply from_str_ok in H. destruct H as [H _]. apply parse_iff in H.
  destruct (enriched_document _ _ _ _ H Hb He) as (e2 & D & S). exists e2. split; auto.
  apply from_str_ok. split; [|exact I]. now apply parse_iff.
Qed.
