(** Pipelines keep templates that readers of HTML understand as the library does. *)
From Coq Require Import String ZArith NArith.
From stdpp Require Import gmap.
From Verif Require Import Text Event Input Parse Selector Machine Template.
From Verif Require Import SpecText SpecAttr SpecParse SpecRender SpecTree SpecTransform SpecOps SpecSafe
  SpecHtml5 SpecHtmlSafe.
From Verif Require Import TextProofs AttrProofs AttrProofs2 ParseProofs ParseProofs6 ParseProofs7 ParseProofs8 ParseProofs9
  Trace TraceProofs PipelineProofs TreeProofs ReachProofs SelectionProofs OpProofs SafeProofs SafeProofs2
  SafeProofs3 KeepProofs Html5Proofs Html5Proofs2.
Local Open Scope N_scope.

(** ** Attributes *)

Section attributes.
Context (N : str -> Prop) (k : char) (Hk : k <> 32).
Definition AttrFree (a : attribute) : Prop :=
  N (id_str (a_name a)) /\ match a_value a with Some v => ~ In k (enc_str v) | None => True end.
Definition AttrsFree (a : attributes) : Prop := forall x, In x a -> AttrFree x.
Lemma af_cons x a : AttrsFree (x :: a) -> AttrFree x /\ AttrsFree a.
Proof. intros H. split; [apply H; now left|]. intros y Hy. apply H. now right. Qed.
Lemma af_except a n : AttrsFree a -> AttrsFree (attributes_except a n).
Proof. intros H x Hx. apply H. eapply except_in; eauto. Qed.
Lemma af_snoc a x : AttrsFree a -> AttrFree x -> AttrsFree (a ++ [x]).
Proof. intros H Hx y Hy. apply in_app_or in Hy as [Hy|[<-|[]]]; auto. Qed.
Lemma af_add_to a n v sep : AttrsFree a -> N (id_str n) ->
  ~ In k (enc_str v) -> ~ In k (enc_str sep) -> AttrsFree (add_to_attribute a n v sep).
Proof.
  intros Ha Hn Hv Hs. induction a as [|y l IH]; simpl.
  - intros x [<-|[]]. split; auto.
  - apply af_cons in Ha as [Hy Hl].
    destruct (ident_eqb (a_name y) n).
    + intros x [<-|Hx]; auto. destruct Hy as [Hy1 Hy2]. split; [exact Hy1|]. simpl.
      destruct (a_value y) as [w|]; auto. rewrite !enc_join_str, !in_app_iff. tauto.
    + intros x [<-|Hx]; auto. now apply IH.
Qed.
Lemma af_without classes n acc : (forall w, In w classes -> ~ In k w) -> ~ In k (enc_str acc) ->
  ~ In k (enc_str (without_class_loop classes n acc)).
Proof.
  revert acc. induction classes as [|w l IH]; intros acc Hl Ha; simpl; auto.
  assert (forall w, In w l -> ~ In k w) as Hl' by (intros; apply Hl; now right).
  destruct (negb (identifier_eq n w)); auto. apply IH; auto.
  assert (~ In k w) as Hw by (apply Hl; now left).
  assert (forall e v, enc_str (enc_push_encoded_str e v) = enc_str e ++ v) as Hpush by reflexivity.
  destruct (negb (enc_is_empty acc)); rewrite !Hpush, !in_app_iff; [|tauto].
  intros [[Hi|[Hi|[]]]|Hi]; auto.
Qed.
Lemma af_remove_class a n : AttrsFree a -> AttrsFree (remove_class a n).
Proof.
  intros Ha. unfold remove_class. destruct (has_class a (id_str n)); auto.
  induction a as [|y l IH]; [exact Ha|]. simpl. apply af_cons in Ha as [Hy Hl].
  specialize (IH Hl). destruct (attribute_remove_class y (id_str n)) as [y'|] eqn:E; auto.
  intros x [<-|Hx]; auto. unfold attribute_remove_class in E.
  destruct (make_without y (id_str n)) as [v|] eqn:Ew; [|now injection E as <-].
  destruct (enc_is_empty v); [discriminate|]. injection E as <-.
  unfold make_without in Ew. destruct (negb _); [discriminate|].
  unfold attribute_classes in Ew. destruct (ident_is_eq _ _); [|discriminate].
  destruct Hy as [Hy1 Hy2]. split; [exact Hy1|]. simpl.
  destruct (a_value y) as [w|]; [|discriminate]. injection Ew as <-.
  apply af_without.
  - intros u Hu Hc. apply filter_In in Hu as [Hu _]. apply Hy2. eapply split_whitespace_in; eauto.
  - intros [].
Qed.
Definition cmd_of (c : attr_cmd) : Prop :=
  match c with
  | ARemoveClass _ | ARemoveAttribute _ => True
  | AAddAttribute n v | ASetAttribute n v | AReplaceAttribute n v =>
      N (id_str n) /\ forall w, v = Some w -> ~ In k (enc_str w)
  | AAddToAttribute n v sep => N (id_str n) /\ ~ In k (enc_str v) /\ ~ In k (enc_str sep)
  end.
Lemma af_new n v : N (id_str n) -> (forall w, v = Some w -> ~ In k (enc_str w)) -> AttrFree (Attribute n v).
Proof. intros H1 H2. split; auto. simpl. destruct v; auto. Qed.
Lemma af_apply c a : cmd_of c -> AttrsFree a -> AttrsFree (apply_attr c a).
Proof.
  destruct c; simpl; intros Hc Ha.
  - now apply af_remove_class.
  - now apply af_except.
  - destruct Hc. apply af_snoc; auto. now apply af_new.
  - destruct Hc. unfold replace_attribute. destruct (negb _).
    + apply af_snoc; [now apply af_except|now apply af_new].
    + now apply af_except.
  - destruct Hc as (H1 & H2 & H3). now apply af_add_to.
  - destruct Hc. unfold set_attribute. apply af_snoc; [now apply af_except|now apply af_new].
Qed.
End attributes.

Definition HtmlAttrName (n : str) : Prop := Writable n /\ Clean n.
Definition html_cmd (c : attr_cmd) : Prop :=
  forall k, In k [34; 0; 13] -> cmd_of HtmlAttrName k c.
Lemma html_attributes_free a : Forall HtmlAttribute a <-> forall k, In k [34; 0; 13] -> AttrsFree HtmlAttrName k a.
Proof.
  rewrite List.Forall_forall. split.
  - intros H k Hk x Hx. destruct (H x Hx) as (H1 & H2 & H3). split; [now split|].
    destruct (a_value x) as [v|]; auto. destruct H3 as [H3 [H4 H5]].
    destruct Hk as [<-|[<-|[<-|[]]]]; auto.
  - intros H x Hx.
    destruct (H 34 ltac:(simpl; auto) x Hx) as [[H1 H2] H3].
    destruct (H 0 ltac:(simpl; auto) x Hx) as [_ H4].
    destruct (H 13 ltac:(simpl; auto) x Hx) as [_ H5].
    split; auto. split; auto. destruct (a_value x); auto. split; auto. now split.
Qed.
Lemma html_apply c a : html_cmd c -> Forall HtmlAttribute a -> Forall HtmlAttribute (apply_attr c a).
Proof.
  rewrite !html_attributes_free. intros Hc Ha k Hk. apply af_apply; auto.
  destruct Hk as [<-|[<-|[<-|[]]]]; discriminate.
Qed.

(** ** Text *)

Lemma clean_app a b : Clean a -> Clean b -> Clean (a ++ b).
Proof. intros [A1 A2] [B1 B2]. split; now apply not_in_app. Qed.
Lemma same_name_cons_l a b n : SameName (a :: b) n -> exists a' b', n = a' :: b' /\ small a = small a' /\ SameName b b'.
Proof.
  intros H. apply lower_same_name in H. destruct n as [|a' b']; [discriminate|].
  injection H as H1 H2. exists a', b'. split; auto. split; auto. now apply lower_same_name.
Qed.
Lemma small_lt c : small c = 60 -> c = 60.
Proof.
  unfold small. destruct (upper c) eqn:E; auto. apply upper_spec in E. unfold char in *. lia.
Qed.
Lemma partly_begins n q m : SameName (q ++ m) (lit "</" ++ n) -> q <> [] -> In 60 q.
Proof.
  intros H Hq. destruct q as [|c q]; [easy|]. left.
  apply same_name_cons_l in H as (a' & b' & E & H & _). injection E as <- <-.
  now apply small_lt.
Qed.
Lemma settled_nil n : SettledText n [].
Proof.
  assert (forall p q : str, [] = p ++ q -> p = [] /\ q = []) as H0.
  { intros [|] [|]; try discriminate; auto. }
  split; [split; [|split]|split].
  - split; intros [].
  - intros p q E (m & d & r & E' & _). apply H0 in E as [_ ->]. discriminate.
  - intros _ p q E. apply H0 in E as [_ E]. discriminate E.
  - intros (p & q & E & Hq & _). apply H0 in E as [_ ->]. easy.
  - intros _ p q E. apply H0 in E as [_ ->]. now left.
Qed.
Lemma settled_plain n c : Clean c -> ~ In 60 c -> SettledText n c.
Proof.
  intros Hc H60. assert (forall p q, c = p ++ q -> ~ In 60 q) as Hq.
  { intros p q -> H. apply H60. apply in_or_app. now right. }
  split; [split; [exact Hc|split]|split].
  - intros p q E (m & d & r & E' & _). apply (Hq _ _ E). rewrite E'. now left.
  - intros _ p q E. apply (Hq _ _ E). now left.
  - intros (p & q & E & Hne & m & Hm). apply (Hq _ _ E). now apply (partly_begins n q m).
  - intros _ p q E. destruct q as [|d q]; [now left|right]. intros m Em. apply (Hq _ _ E).
    injection Em as -> _. now left.
Qed.
Lemma app_split {A} (a b p q : list A) : a ++ b = p ++ q ->
  (exists q1, a = p ++ q1 /\ q1 <> [] /\ q = q1 ++ b) \/ (exists p2, p = a ++ p2 /\ b = p2 ++ q).
Proof.
  revert p. induction a as [|x a IH]; intros p E.
  - right. exists p. auto.
  - destruct p as [|y p].
    + left. exists (x :: a). split; [reflexivity|]. split; [easy|]. symmetry. exact E.
    + injection E as -> E. destruct (IH p E) as [(q1 & -> & H & ->)|(p2 & -> & H)].
      * left. exists q1. auto.
      * right. exists p2. auto.
Qed.
Lemma settled_app n a b : SettledText n a -> SettledText n b -> SettledText n (a ++ b).
Proof.
  intros ((A1 & A2 & A3) & A4 & A5) ((B1 & B2 & B3) & B4 & B5).
  split; [split; [now apply clean_app|split]|split].
  - intros p q E (m & d & r & E' & Hm & Hd).
    apply app_split in E as [(q1 & Ea & Hne & ->)|(p2 & -> & Eb)].
    + rewrite app_assoc in E'. destruct (app_split (lit "</" ++ m) (d :: r) q1 b (eq_sym E'))
        as [(m2 & E1 & Hm2 & E2)|(p2 & E1 & E2)].
      * apply A4. exists p, q1. split; auto. split; auto. exists m2. rewrite <- E1.
        apply lower_same_name. unfold lower. rewrite !map_app. f_equal. now apply lower_same_name.
      * destruct p2 as [|x p2].
        -- apply A4. exists p, q1. split; auto. split; auto. exists []. rewrite app_nil_r, E1, app_nil_r.
           apply lower_same_name. unfold lower. rewrite !map_app. f_equal. now apply lower_same_name.
        -- injection E2 as <- E2. apply (A2 p q1 Ea). exists m, d, p2. rewrite app_assoc. auto.
    + apply (B2 p2 q Eb). exists m, d, r. auto.
  - intros Hs p q E. apply app_split in E as [(q1 & Ea & Hne & E)|(p2 & -> & Eb)].
    + symmetry in E. apply (app_split q1 b (lit "<!--") q) in E as [(r1 & E1 & _ & E2)|(p2 & E1 & E2)].
      * apply (A3 Hs p r1). now rewrite Ea, E1.
      * destruct (A5 Hs p q1 Ea) as [E|E]; [easy|]. now apply (E p2).
    + now apply (B3 Hs p2 q).
  - intros (p & q & E & Hq & m & Hm). apply app_split in E as [(q1 & Ea & Hne & ->)|(p2 & -> & Eb)].
    + apply A4. exists p, q1. split; auto. split; auto. exists (b ++ m). now rewrite app_assoc.
    + apply B4. exists p2, q. eauto.
  - intros Hs p q E. apply app_split in E as [(q1 & Ea & Hne & ->)|(p2 & -> & Eb)].
    + right. intros m Em. destruct (A5 Hs p q1 Ea) as [E|E]; [easy|]. apply (E (b ++ m)). now rewrite app_assoc.
    + eauto.
Qed.
Lemma leading_text_app x y : Forall TextEvent x -> leading (x ++ y) = leading x ++ leading y.
Proof.
  induction 1 as [|ev l H _ IH]; auto. destruct ev; try contradiction; simpl; now rewrite IH, app_assoc.
Qed.
Lemma html_text_leading evs : HtmlText evs -> Forall TextEvent evs /\ Clean (leading evs) /\ ~ In 60 (leading evs).
Proof.
  induction 1 as [|ev l (c & -> & H1 & H2) _ (I1 & I2 & I3)].
  - split; [constructor|]. split; [split; intros []|intros []].
  - split; [constructor; simpl; auto|]. simpl. split; [now apply clean_app|now apply not_in_app].
Qed.

(** ** Trees *)

Section trees.
Context (b sc : bool).
Definition HtmlContents (n : str) (evs : list event) : Prop := TextElement b n /\ TextContents n evs.

Lemma html_attrs_valid a : Forall HtmlAttribute a -> ValidAttrs a.
Proof. intros H x Hx. rewrite List.Forall_forall in H. apply (H x Hx). Qed.
Lemma html_name_valid n : HtmlName n -> ValidName n.
Proof. intros H. apply H. Qed.
Lemma html_proper x : HtmlTree b sc x -> ProperTree x.
Proof.
  induction 1 as [c H|c H|c H|t a [H _] Ha|t a [H _] Ha|t a kids c [H _] Ha Hc Hw _ IH
                 |t a kids c _ H Ht Ha Hc Hw He _].
  - constructor; exact I.
  - constructor; exact I.
  - constructor; exact I.
  - constructor; [exact I|]. split; [now apply html_name_valid|now apply html_attrs_valid].
  - constructor; [exact I|]. split; [now apply html_name_valid|now apply html_attrs_valid].
  - constructor; auto; [now apply html_name_valid|now apply html_attrs_valid].
  - constructor; auto; [now apply html_name_valid|now apply html_attrs_valid|].
    intros x Hx. destruct (text_kids _ He x Hx) as (ev & -> & Hev).
    destruct ev; try contradiction; constructor; exact I.
Qed.
Lemma html_text_ok evs : HtmlText evs -> Ok (HtmlTree b sc) evs.
Proof.
  intros H. exists (map Leaf evs). split; [|now rewrite events_leaves].
  intros x Hx. apply in_map_iff in Hx as (ev & <- & Hev). unfold HtmlText in H. rewrite List.Forall_forall in H.
  destruct (H ev Hev) as (c & -> & H1 & H2). now constructor.
Qed.
Lemma html_elem t a kids c : HtmlTree b sc (Elem t a kids c) ->
  (OkForest (HtmlTree b sc) kids /\ forall k, OkForest (HtmlTree b sc) k -> HtmlTree b sc (Elem t a k c)) \/
  (sc = true /\ exists r, HtmlContents r (events kids) /\
     forall k, HtmlContents r (events k) -> HtmlTree b sc (Elem t a k c)).
Proof.
  intros H. inversion H; subst.
  - left. split; auto. intros k Hk. now apply Ht_elem.
  - right. split; auto. exists (id_str t). split; [split; auto; split; auto|].
    intros k (_ & Hk1 & Hk2). now apply Ht_text.
Qed.

Lemma html_keep evs p e r : HtmlTemplate b sc evs -> typed false p e -> ValidArgs p ->
  OkP sc (HtmlTree b sc) HtmlContents HtmlText html_cmd false p ->
  Gives evs p (inl r) -> HtmlTemplate b sc r.
Proof.
  apply (keep_pipeline sc (HtmlTree b sc) HtmlContents HtmlText html_cmd).
  - apply html_proper.
  - intros n x (_ & H & _). exact H.
  - intros n x (H & _). split; auto. split; [constructor|apply settled_nil].
  - intros n x y (H & _) Hy. split; auto. destruct (html_text_leading y Hy) as (H1 & H2 & H3).
    split; auto. now apply settled_plain.
  - intros n x y (H & X1 & X2) (_ & Y1 & Y2). split; auto. split; [now apply Forall_app|].
    rewrite leading_text_app by assumption. now apply settled_app.
  - apply html_text_ok.
  - apply html_elem.
  - intros t a H. inversion H; subst. apply Ht_elem; auto using same_name_refl.
    + match goal with K : OrdinaryName _ _ |- _ => apply K end.
    + intros x [].
  - intros c t a Hc H. inversion H; subst. constructor; auto. now apply html_apply.
  - intros c t a Hc H. inversion H; subst. constructor; auto. now apply html_apply.
  - intros c t a kids d Hc H. inversion H; subst.
    + apply Ht_elem; auto. now apply html_apply.
    + apply Ht_text; auto. now apply html_apply.
Qed.

Lemma clean_class : Clean (lit "class").
Proof. split; vm_compute; intuition discriminate. Qed.
Lemma clean_id : Clean (lit "id").
Proof. split; vm_compute; intuition discriminate. Qed.
Lemma clean_space : Clean (enc_str (enc_from_unencoded_static_str (lit " "))).
Proof. split; vm_compute; intuition discriminate. Qed.
Lemma html_value_free v k : ~ In 34 v /\ Clean v -> In k [34; 0; 13] -> ~ In k v.
Proof. intros (H1 & H2 & H3) [<-|[<-|[<-|[]]]]; auto. Qed.
Lemma html_call_command p i o c : ValidArgs p -> Occurs p o -> HtmlCall b sc i o ->
  op_command o = Some c -> html_cmd c.
Proof.
  intros Hv Ho H E. pose proof (html_name _ _ _ _ H) as Hn. pose proof (html_names _ _ _ _ H) as Hc.
  pose proof (html_value _ _ _ _ H) as Hw.
  assert (forall n, op_name o = Some (inl n) -> ValidName (id_str n)) as Hvalid.
  { intros n En. apply (proj1 Hv o n); auto. }
  clear H. intros k Hk. destruct o; try discriminate; try (destruct name as [n|]; [|discriminate]); injection E as <-; cbn [cmd_of].
  - split; [split; auto; apply Hn; reflexivity|]. intros w ->. apply html_value_free; auto. now apply Hw.
  - split; [split; auto; apply Hn; reflexivity|]. split; apply html_value_free; auto; apply Hw; simpl; auto.
  - split; [split; auto; apply Hn; reflexivity|]. intros w [= <-]. apply html_value_free; auto. now apply Hw.
  - split; [split; auto; apply Hn; reflexivity|]. intros w ->. apply html_value_free; auto. now apply Hw.
  - exact I.
  - split; [split; [apply class_writable|apply clean_class]|]. split; apply html_value_free; auto.
    + split; [apply quote_free_name; now apply Hvalid|now apply Hc].
    + split; [apply space_free|apply clean_space].
  - exact I.
  - exact I.
  - split; [split; [apply id_writable|apply clean_id]|]. intros w [= <-]. apply html_value_free; auto.
    split; [apply quote_free_name; now apply Hvalid|now apply Hc].
Qed.
Lemma html_pipeline evs p e r : HtmlTemplate b sc evs -> typed false p e -> ValidArgs p -> HtmlCalls b sc p ->
  Gives evs p (inl r) -> HtmlTemplate b sc r.
Proof.
  intros H1 H2 H3 H4. apply (html_keep evs p e r); auto. intros k o Ho.
  pose proof (H4 k o Ho) as Hc. split.
  - intros c Ec x Ex. pose proof (content_gives c) as Hg. rewrite Ex in Hg.
    pose proof (html_content _ _ _ _ Hc c x Ec Hg) as X. destruct (Into sc k o); exact X.
  - intros c. apply (html_call_command p k o c); auto. eapply occurs_in_occurs; eauto.
  - apply (html_selector _ _ _ _ Hc).
  - intros f x y Ef Ey. destruct (html_function _ _ _ _ Hc f x y Ef Ey) as [F1 F2]. split; [exact F1|].
    intros Hk n [Hn Hx]. split; auto.
Qed.

(** Rendering. *)
Lemma standard_app x y : Standard b x -> Standard b y -> Standard b (x ++ y).
Proof.
  induction 1; intros Hy; cbn [app]; auto.
  - constructor; auto.
  - eapply Std_text; eauto.
  - constructor; auto.
  - constructor; auto.
  - eapply Std_tag; eauto.
  - constructor; auto.
  - rewrite <- app_assoc. cbn [app]. apply Std_element; auto.
Qed.
Lemma standard_forest kids : (forall x, In x kids -> Standard b (tree_events x)) -> Standard b (events kids).
Proof.
  induction kids as [|x kids IH]; intros H; [constructor|]. rewrite events_cons. apply standard_app.
  - apply H. now left.
  - apply IH. intros y Hy. apply H. now right.
Qed.
Lemma html_tree_standard x : HtmlTree b sc x -> Standard b (tree_events x).
Proof.
  induction 1 as [c H1 H2|c H|c H|t a H Ha|t a H Ha|t a kids c H Ha Hc Hw _ IH
                 |t a kids c _ H Ht Ha Hc Hw He [Hx _]].
  - eapply Std_text; eauto. constructor.
  - apply Std_comment; auto. constructor.
  - apply Std_doctype; auto. constructor.
  - eapply Std_tag; eauto. constructor.
  - eapply Std_tag; eauto. constructor.
  - rewrite tree_events_elem. eapply Std_tag; eauto. apply standard_app; [now apply standard_forest|].
    apply Std_end; auto. constructor.
  - rewrite tree_events_elem. apply Std_element; auto; [|constructor].
    eapply List.Forall_impl; [|exact He]. intros ev. destruct ev; try contradiction; eauto.
Qed.
Lemma html_standard evs : HtmlTemplate b sc evs -> Standard b evs.
Proof. intros (F & HF & ->). apply standard_forest. intros x Hx. apply html_tree_standard. auto. Qed.
Lemma html_tokens evs : HtmlTemplate b sc evs -> tokens b (display_events evs) = flat_map event_tokens evs.
Proof. intros H. apply standard_tokens. now apply html_standard. Qed.
Lemma html_result evs p e r : HtmlTemplate b sc evs -> typed false p e -> ValidArgs p -> HtmlCalls b sc p ->
  Gives evs p (inl r) -> tokens b (display_events r) = flat_map event_tokens r.
Proof. intros H1 H2 H3 H4 H5. apply html_tokens. eapply html_pipeline; eauto. Qed.
End trees.

(** ** Literals and numbers *)

Lemma escape_clean s : Clean s -> Clean (escape s).
Proof.
  assert (forall k, In k [0; 13] -> ~ In k s -> ~ In k (escape s)) as H.
  { intros k Hk Hs Hi. unfold escape in Hi. apply in_flat_map in Hi as (c & Hc & Hi).
    destruct (escape1_cases c) as [He|(E & _)].
    - remember (escape1 c) as e eqn:Ee. clear Ee. destruct He; destruct Hk as [<-|[<-|[]]];
        vm_compute in Hi; repeat (destruct Hi as [Hi|Hi]; [discriminate|]); destruct Hi.
    - rewrite E in Hi. destruct Hi as [<-|[]]. auto. }
  intros [H1 H2]. split; apply H; simpl; auto.
Qed.
Lemma number_clean z : Clean (decimal_z z).
Proof. split; intros H; apply decimal_z_chars in H; unfold IsDigit in H; lia. Qed.
Lemma clean_html_text c : CleanContent c -> forall evs, ContentGives c (inl evs) -> HtmlText evs.
Proof.
  induction 1 as [s Hs|z|c _ IH|e]; intros evs H; inversion H; subst; auto.
  - constructor; [|constructor]. eexists. split; [reflexivity|]. split.
    + cbn [enc_str]. rewrite static_str. now apply escape_clean.
    + apply static_markup_free.
  - constructor; [|constructor]. eexists. split; [reflexivity|]. split; [apply number_clean|apply number_markup_free].
Qed.
Lemma clean_content_static c : CleanContent c -> StaticContent c.
Proof. induction 1; now constructor. Qed.
Lemma clean_value_free v : CleanValue v -> ~ In 34 (enc_str v) /\ Clean (enc_str v).
Proof.
  intros [s Hs|z]; (split; [first [apply static_markup_free|apply number_markup_free]|]).
  - rewrite static_str. now apply escape_clean.
  - apply number_clean.
Qed.
Lemma clean_html b sc i o : CleanCall o -> HtmlCall b sc i o.
Proof.
  intros [H1 H2 H3 H4 H5 H6]. constructor; auto.
  - intros c evs Hc Hg. pose proof (clean_html_text c (H1 c Hc) evs Hg) as Hp.
    destruct (Into sc i o); [exact Hp|]. destruct (html_text_ok b sc evs Hp) as (F & HF & E). now exists F.
  - intros v Hv. apply clean_value_free. auto.
  - intros f x y Hf. congruence.
Qed.
Lemma clean_valid_args p : NamesValid p -> (forall o, Occurs p o -> CleanCall o) -> ValidArgs p.
Proof.
  intros Hn Hs. split; auto. split; [|split].
  - intros o evs Ho (c & Hc & Hg). apply (readable_well_nested true). apply plain_readable.
    eapply static_plain; eauto. apply clean_content_static. now apply (clean_content _ (Hs o Ho)).
  - intros o f x y Ho Hf. rewrite (clean_function _ (Hs o Ho)) in Hf. discriminate.
  - intros o evs Ho (c & Hc & Hg). exists []. rewrite app_nil_r.
    rewrite (static_breaks c evs (clean_content_static _ (clean_content _ (Hs o Ho) c Hc)) Hg).
    exists []. split; [apply proper_nil|reflexivity].
Qed.
Lemma clean_result b sc evs p e r : HtmlTemplate b sc evs -> typed false p e -> NamesValid p ->
  (forall o, Occurs p o -> CleanCall o) -> Gives evs p (inl r) ->
  HtmlTemplate b sc r /\ tokens b (display_events r) = flat_map event_tokens r.
Proof.
  intros H1 H2 H3 H4 H5. assert (HtmlTemplate b sc r) as H.
  { eapply html_pipeline; eauto; [now apply clean_valid_args|].
    intros i o Ho. apply clean_html, H4. eapply occurs_in_occurs; eauto. }
  split; auto. now apply (html_tokens b sc).
Qed.
