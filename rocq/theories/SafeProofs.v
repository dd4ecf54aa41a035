(** Readable templates render to text that can be parsed, and parsing gives them. *)
From Coq Require Import String ZArith NArith.
From stdpp Require Import gmap.
From Verif Require Import Text Event Input Parse Selector Machine Template.
From Verif Require Import SpecText SpecAttr SpecParse SpecRender SpecTree SpecTransform SpecSafe.
From Verif Require Import TextProofs ParseProofs ParseProofs2 ParseProofs3 ParseProofs4 ParseProofs5
  ParseProofs6 ParseProofs7 ParseProofs8 ParseProofs9 TreeProofs ReachProofs.
Local Open Scope N_scope.

Definition ReadableForest (b : bool) (F : list tree) : Prop := forall x, In x F -> ReadableTree b x.
Lemma rf_nil b : ReadableForest b [].
Proof. intros x []. Qed.
Lemma rf_cons b x F : ReadableForest b (x :: F) <-> ReadableTree b x /\ ReadableForest b F.
Proof.
  split.
  - intros H. split; [apply H; now left|]. intros y Hy. apply H. now right.
  - intros [H1 H2] y [<-|Hy]; auto.
Qed.
Lemma rf_app b F G : ReadableForest b (F ++ G) <-> ReadableForest b F /\ ReadableForest b G.
Proof.
  induction F as [|x F IH]; simpl.
  - split; [split; auto using rf_nil|tauto].
  - rewrite !rf_cons, IH. tauto.
Qed.
Lemma readable_nil b : Readable b [].
Proof. exists []. split; [apply rf_nil|reflexivity]. Qed.
Lemma readable_app b x y : Readable b x -> Readable b y -> Readable b (x ++ y).
Proof.
  intros (F & HF & ->) (G & HG & ->). exists (F ++ G). split; [now apply rf_app|]. now rewrite events_app.
Qed.
Lemma readable_tree b x : ReadableTree b x -> Readable b (tree_events x).
Proof.
  intros H. exists [x]. split; [|now rewrite events_single]. apply rf_cons. auto using rf_nil.
Qed.

(** ** Raw contents are leaves *)

Lemma text_kids kids : Forall TextEvent (events kids) -> forall x, In x kids -> exists ev, x = Leaf ev /\ TextEvent ev.
Proof.
  induction kids as [|y kids IH]; intros H x Hx; [destruct Hx|].
  rewrite events_cons in H. apply Forall_app in H as [H1 H2]. destruct Hx as [<-|Hx]; auto.
  destruct y as [ev|t a k c].
  - inversion H1; subst. eauto.
  - inversion H1; subst. contradiction.
Qed.
Lemma writable_valid n : Writable n -> ValidName n.
Proof. intros H. apply H. Qed.
Lemma readable_attrs_valid a : ReadableAttrs a -> ValidAttrs a.
Proof. intros H b Hb. apply (H b Hb). Qed.

Lemma readable_proper_tree b x : ReadableTree b x -> ProperTree x.
Proof.
  induction 1 as [c H|c H|c H|t a [H _] Ha Hv|t a [H _] Ha Hv Hs|t a kids c [H _] Ha Hv Hr Hc Hw _ IH
                 |t a kids c r _ [H _] Ha Hv Hr Hn Hc Hw [Ht _]].
  - constructor; exact I.
  - constructor; exact I.
  - constructor; exact I.
  - constructor; [exact I|]. split; [now apply writable_valid|now apply readable_attrs_valid].
  - constructor; [exact I|]. split; [now apply writable_valid|now apply readable_attrs_valid].
  - constructor; auto; [now apply writable_valid|now apply readable_attrs_valid].
  - constructor; auto; [now apply writable_valid|now apply readable_attrs_valid|].
    intros x Hx. destruct (text_kids _ Ht x Hx) as (ev & -> & He). destruct ev; try contradiction; constructor; exact I.
Qed.
Lemma readable_proper b F : ReadableForest b F -> Proper F.
Proof. intros H x Hx. eapply readable_proper_tree; eauto. Qed.
Lemma readable_well_nested b evs : Readable b evs -> WellNested evs.
Proof. intros (F & HF & ->). exists F. split; auto. eapply readable_proper; eauto. Qed.

(** ** Rendering *)

Lemma attribute_read_back a : ReadableAttribute a -> exists a', ReadBack a a'.
Proof.
  intros [Hn Hv]. destruct (a_value a) as [v|] eqn:Ev.
  - destruct (gap_split (enc_str v)) as (w & v' & E & G).
    exists (Attribute (name (id_str (a_name a))) (Some (raw v'))). split; auto. split; [reflexivity|].
    rewrite Ev. exists w, v'. split; auto. split; auto. split; [|reflexivity].
    intros Hi. apply Hv. rewrite E. apply in_or_app. auto.
  - exists (Attribute (name (id_str (a_name a))) None). split; auto. split; [reflexivity|]. now rewrite Ev.
Qed.
Lemma attrs_read_back a : ReadableAttrs a -> exists a', Forall2 ReadBack a a'.
Proof.
  induction a as [|x a IH]; intros H; [exists []; constructor|].
  destruct IH as [a' IH]. { intros y Hy. apply H. now right. }
  destruct (attribute_read_back x) as [x' Hx]. { apply H. now left. }
  exists (x' :: a'). now constructor.
Qed.
Lemma tag_spelled t a (slash : bool) tail : ReadableName t -> ReadableAttrs a ->
  tail = (if slash then [32; 47; 62] else [62]) ->
  exists a', Forall2 SameAttribute a a' /\ Tag (60 :: display_tag t a ++ tail) (id_str t) a' slash.
Proof.
  intros [Hn Hb] Ha Et. destruct (attrs_read_back _ Ha) as [a' Hr]. exists a'. split; [now apply read_same|].
  now apply tag_read.
Qed.
Lemma not_raw_after n : ~ RawName n -> forall t, In t RawNames -> ~ SameName n t.
Proof. intros H t Ht Hs. apply H. exists t. auto. Qed.

Lemma close_wr c rest : Writable (id_str c) -> Wr rest -> Wr (ClosingTag c :: rest).
Proof.
  intros Hc Hr. apply W_mark with (ClosingTag (name (id_str c))); auto; try reflexivity.
  constructor. now apply end_tag_read.
Qed.
Lemma readable_wr b x : ReadableTree b x -> forall rest, Wr rest -> Wr (tree_events x ++ rest).
Proof.
  induction 1 as [c H|c H|c H|t a H Ha Hv|t a H Ha Hv Hs|t a kids c H Ha Hv Hr Hc Hw _ IH
                 |t a kids c r _ H Ha Hv Hr Hn Hc Hw [Ht He]]; intros rest Hrest.
  - simpl. now constructor.
  - simpl. apply W_mark with (Comment (raw (enc_str c))); auto; try reflexivity. now apply Sp_comment.
  - simpl. apply W_mark with (Doctype (raw (enc_str c))); auto; try reflexivity.
    apply (Sp_doctype [] (lit "doctype") [32] (enc_str c) []); auto.
    + constructor.
    + apply same_name_refl.
    + constructor; [apply space32|constructor].
    + simpl. apply ends_cons, delim32.
    + constructor.
  - destruct (tag_spelled t a false [62] H Ha eq_refl) as (a' & Hs & Ht). simpl.
    apply W_mark with (VoidTag (name (id_str t)) a'); auto; try reflexivity.
    + now apply Sp_void with false.
    + now split.
  - destruct (tag_spelled t a true [32; 47; 62] H Ha eq_refl) as (a' & Hsa & Ht). simpl.
    apply W_mark with (SelfClosedTag (name (id_str t)) a'); auto; try reflexivity.
    + now apply Sp_self.
    + now split.
  - destruct (tag_spelled t a false [62] H Ha eq_refl) as (a' & Hsa & Ht). rewrite tree_events_elem.
    cbn [app]. apply W_mark with (OpeningTag (name (id_str t)) a'); auto; try reflexivity.
    + now apply Sp_open.
    + now split.
    + cbn [After id_str]. now apply not_raw_after.
    + rewrite <- app_assoc. cbn [app].
      assert (forall G, (forall x, In x G -> In x kids) -> Wr (events G ++ ClosingTag c :: rest)) as HG.
      { induction G as [|y G IHG]; intros HG; [now apply close_wr|].
        rewrite events_cons, <- app_assoc. apply IH; [apply HG; now left|].
        apply IHG. intros z Hz. apply HG. now right. }
      apply HG. auto.
  - destruct (tag_spelled t a false [62] H Ha eq_refl) as (a' & Hsa & Htag). rewrite tree_events_elem.
    cbn [app]. rewrite <- app_assoc. cbn [app].
    apply W_raw with (OpeningTag (name (id_str t)) a') r; auto.
    + now apply Sp_open.
    + now split.
    + split; auto.
    + exists c, rest. split; auto. split; auto. eapply same_name_trans; [apply same_name_sym|]; eauto.
    + now apply close_wr.
Qed.
Lemma readable_forest_wr b F : ReadableForest b F -> Wr (events F).
Proof.
  induction F as [|x F IH]; intros H; [constructor|]. apply rf_cons in H as [H1 H2].
  rewrite events_cons. eapply readable_wr; eauto.
Qed.

Lemma proper_run : forall x, ProperTree x -> forall ns rest ns', Run None ns rest ns' ->
  Run None ns (tree_events x ++ rest) ns'.
Proof.
  apply (tree_rect' (fun x => ProperTree x -> forall ns rest ns', Run None ns rest ns' ->
    Run None ns (tree_events x ++ rest) ns')).
  - intros ev Hp ns rest ns' Hr. inversion Hp; subst. simpl. now apply Run_leaf.
  - intros t a kids c IH Hp ns rest ns' Hr. inversion Hp; subst. rewrite tree_events_elem.
    cbn [app]. rewrite <- app_assoc. cbn [app]. constructor; [discriminate|].
    assert (forall G, (forall x, In x G -> In x kids) ->
              Run None (id_str t :: ns) (events G ++ ClosingTag c :: rest) ns') as HG.
    { induction G as [|y G IHG]; intros HG; [constructor; auto; now apply same_name_sym|].
      rewrite events_cons, <- app_assoc. apply IH; [apply HG; now left|auto|].
      - match goal with K : forall x, In x kids -> ProperTree x |- _ => apply K end. apply HG. now left.
      - apply IHG. intros z Hz. apply HG. now right. }
    apply HG. auto.
Qed.
Lemma proper_forest_run F ns : Proper F -> Run None ns (events F) ns.
Proof.
  induction F as [|x F IH]; intros H; [constructor|]. apply proper_cons in H as [H1 H2].
  rewrite events_cons. apply proper_run; auto.
Qed.

Lemma readable_parses b evs : Readable b evs ->
  exists evs', from_str (display_events evs) (Options None None) = TOk evs' /\ SameStructure evs evs'.
Proof.
  intros (F & HF & ->). destruct (wr_lex _ (readable_forest_wr _ _ HF)) as (evs' & L & S). exists evs'. split; auto.
  apply from_str_ok. split; [|exact I]. apply parse_iff, document_iff. split; auto.
  eapply same_structure_run; eauto; [eapply lex_no_noop; eauto|].
  apply proper_forest_run. eapply readable_proper; eauto.
Qed.

(** ** Parsing *)

Lemma read_back_readable a : Forall2 ReadBack a a -> ReadableAttrs a.
Proof.
  intros H x Hx. apply (forall2_diag ReadBack a H) in Hx. destruct Hx as (Hn & _ & Hv). split; auto.
  destruct (a_value x) as [v|]; auto. destruct Hv as (w & v' & E & _ & H34 & E2). injection E2 as ->.
  exact H34.
Qed.
Lemma tag_readable s n a slash : Tag s n a slash -> no_bang n -> ReadableName (name n) /\ ReadableAttrs a.
Proof.
  intros H Hb. destruct (tag_plain _ _ _ _ H) as [Hp Ha]. split; [now split|now apply read_back_readable].
Qed.
Lemma spells_leaf slice ev : Spells slice ev -> NoBang ev -> is_leaf ev -> ReadableTree true (Leaf ev).
Proof.
  intros Hs Hb Hl. inversion Hs; subst; try contradiction.
  - now constructor.
  - now constructor.
  - now constructor.
  - destruct (tag_readable _ _ _ _ H Hb). now constructor.
  - destruct (tag_readable _ _ _ _ H Hb). constructor; auto. discriminate.
Qed.

Lemma events_closing F c G d rest : Proper F -> events F ++ ClosingTag c :: rest = ClosingTag d :: G ->
  F = [] /\ c = d /\ rest = G.
Proof.
  intros HF E. destruct F as [|x F].
  - simpl in E. injection E as -> ->. auto.
  - exfalso. apply proper_cons in HF as [Hx _]. destruct x as [ev|t a k e].
    + injection E as E _. subst. inversion Hx; subst. contradiction.
    + discriminate.
Qed.

Lemma lex_readable : forall x, ProperTree x -> forall s rest,
  Lex None s (tree_events x ++ rest) -> Forall NoBang (tree_events x) ->
  ReadableTree true x /\ exists s', Lex None s' rest.
Proof.
  apply (tree_rect' (fun x => ProperTree x -> forall s rest,
    Lex None s (tree_events x ++ rest) -> Forall NoBang (tree_events x) ->
    ReadableTree true x /\ exists s', Lex None s' rest)).
  - intros ev Hp s rest L Hb. inversion Hp; subst. inversion Hb; subst.
    simpl in L. inversion L as [|? slice r ? m' ? Hne Hi HL]; subst.
    inversion Hi as [? ? ? ? Hs Ha Hd|]; subst. split; [eapply spells_leaf; eauto|].
    assert (m' = None) as -> by (destruct ev; try contradiction; exact Ha). eauto.
  - intros t a kids c IH Hp s rest L Hb. inversion Hp; subst. rewrite tree_events_elem in L, Hb.
    cbn [app] in L. rewrite <- app_assoc in L. cbn [app] in L.
    inversion Hb as [|? ? Hb1 Hb2]; subst. apply Forall_app in Hb2 as [Hb2 _].
    inversion L as [|? slice r ? m' ? Hne Hi HL]; subst.
    inversion Hi as [? ? ? ? Hs Ha Hd|]; subst.
    inversion Hs as [| | | | | |? n ? T V]; subst. destruct (tag_readable _ _ _ _ T Hb1) as [Hn Hat].
    destruct m' as [w|].
    + destruct Ha as [Hw Hsn].
      remember (events kids ++ ClosingTag c :: rest) as tail eqn:Et.
      inversion HL as [|? slice2 r2 ev2 m2 evs2 Hne2 Hi2 HL2]; subst.
      { destruct (events kids); discriminate. }
      pose proof (item_raw_no_end _ _ _ _ _ Hi2) as Hend.
      inversion Hi2 as [|? ? ? Hstop Hmin]; subst.
      match goal with K : _ :: _ = events kids ++ _ |- _ => rename K into Et end.
      destruct kids as [|k kids]; [discriminate|]. rewrite events_cons in Et.
      assert (Proper (k :: kids)) as Hk by assumption. apply proper_cons in Hk as [Hk Hks].
      destruct k as [ev|]; [|discriminate].
      injection Et as E1 E2. subst ev evs2.
      destruct Hstop as [->|Hstop].
      { inversion HL2 as [? E3|? ? ? ? ? ? Hx]; subst.
        - destruct (events kids); discriminate.
        - congruence. }
      destruct Hstop as (sl & rs & n' & -> & Het & Hsn').
      destruct (lex_end_tag _ _ _ _ Het HL2) as [b Eb].
      destruct (events_closing _ _ _ _ _ Hks Eb) as (-> & -> & ->).
      split.
      * apply Rd_raw with w; auto.
        -- now apply (closing_plain _ _ _ _ HL2).
        -- split; [repeat constructor|]. simpl. rewrite app_nil_r. exact Hend.
      * simpl in HL2. inversion HL2 as [|? ? ? ? m3 ? ? Hi3 HL3]; subst.
        assert (m3 = None) as -> by (inversion Hi3; subst; auto). eauto.
    + assert (forall G s, (forall x, In x G -> In x kids) -> Forall NoBang (events G) ->
                Lex None s (events G ++ ClosingTag c :: rest) ->
                ReadableForest true G /\ exists s', Lex None s' (ClosingTag c :: rest)) as HG.
      { induction G as [|y G IHG]; intros s0 Hin Hbb LL; [split; [apply rf_nil|eauto]|].
        rewrite events_cons in Hbb. apply Forall_app in Hbb as [Hy HG].
        rewrite events_cons, <- app_assoc in LL.
        destruct (IH y (Hin y (or_introl eq_refl)) ltac:(match goal with K : forall x, In x kids -> ProperTree x |- _ => apply K, Hin; now left end) _ _ LL Hy) as [Hr1 [s1 L1]].
        destruct (IHG s1) as [Hf1 Hf2]; auto. { intros z Hz. apply Hin. now right. }
        split; auto. apply rf_cons. auto. }
      destruct (HG kids r) as [Hkids [s1 L1]]; auto.
      split.
      * apply Rd_elem; auto.
        -- intros (w & Hw & Hsn). exact (Ha w Hw Hsn).
        -- eapply closing_plain; eauto.
      * inversion L1 as [|? ? ? ? m3 ? ? Hi3 HL3]; subst.
        assert (m3 = None) as -> by (inversion Hi3; subst; auto). eauto.
Qed.

Lemma parsed_readable s o evs : from_str s o = TOk evs -> Forall NoBang evs -> Readable true evs.
Proof.
  intros H Hb. destruct (parsed_well_nested _ _ _ H) as (F & HF & ->). exists F. split; [|reflexivity].
  apply from_str_ok in H as [H _]. apply parse_iff, document_iff in H as [L _].
  revert s L Hb HF. induction F as [|x F IH]; intros s L Hb HF; [intros x []|].
  apply proper_cons in HF as [Hx HF]. rewrite events_cons in L, Hb. apply Forall_app in Hb as [Hb1 Hb2].
  destruct (lex_readable x Hx s _ L Hb1) as [H1 [s' L']]. apply rf_cons. split; auto. exact (IH s' L' Hb2 HF).
Qed.
