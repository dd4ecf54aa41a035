(** Safe pipelines keep templates readable. *)
From Coq Require Import String ZArith NArith.
From stdpp Require Import gmap.
From Verif Require Import Text Event Input Parse Selector Machine Template.
From Verif Require Import SpecText SpecAttr SpecParse SpecRender SpecTree SpecTransform SpecOps SpecSafe.
From Verif Require Import TextProofs AttrProofs AttrProofs2 ParseProofs ParseProofs6 ParseProofs7 ParseProofs8
  Trace TraceProofs PipelineProofs TreeProofs ReachProofs SelectionProofs OpProofs SafeProofs.
Local Open Scope nat_scope.

(** ** Raw contents and plain text *)

Lemma raw_nil r : RawContents r [].
Proof. split; [constructor|]. apply no_end_free. intros []. Qed.
Lemma plain_texts evs : PlainText evs -> Forall TextEvent evs /\ ~ In 60%N (leading evs) /\ ~ In 62%N (leading evs).
Proof.
  intros H. destruct (fill_texts _ H) as [H1 H2]. pose proof (free_texts _ H). auto.
Qed.
Lemma raw_around r p evs q : PlainText p -> RawContents r evs -> PlainText q -> RawContents r (p ++ evs ++ q).
Proof.
  intros Hp [H1 H2] Hq. destruct (plain_texts _ Hp) as (P1 & P2 & P3). destruct (plain_texts _ Hq) as (Q1 & Q2 & Q3).
  split.
  - apply Forall_app. split; auto. apply Forall_app. auto.
  - rewrite !leading_texts by auto. apply no_end_around; auto.
Qed.
Lemma plain_nil : PlainText [].
Proof. constructor. Qed.
Lemma plain_raw r p : PlainText p -> RawContents r p.
Proof.
  intros H. pose proof (raw_around r p [] [] H (raw_nil r) plain_nil) as X. simpl in X. now rewrite app_nil_r in X.
Qed.
Lemma plain_readable b evs : PlainText evs -> Readable b evs.
Proof.
  induction 1 as [|ev l (c & -> & H & _) _ IH]; [apply readable_nil|].
  apply (readable_app b [Data c] l); auto. apply (readable_tree b (Leaf (Data c))). now constructor.
Qed.
Lemma text_nest evs st : Forall TextEvent evs -> nest st evs = Some st.
Proof.
  induction 1 as [|ev l H _ IH]; [reflexivity|]. destruct ev; try contradiction; exact IH.
Qed.
Lemma raw_not_whole r evs : RawContents r evs -> ~ Whole evs.
Proof.
  intros [H _] Hw. destruct evs as [|ev l]; [exact Hw|]. inversion H; subst. destruct ev; contradiction.
Qed.
Lemma text_no_match m evs : ElementSelector m -> Forall TextEvent evs -> forall ev, In ev evs -> matches m ev = false.
Proof.
  intros Hm H ev Hev. rewrite Forall_forall in H. specialize (H ev (proj2 (elem_of_list_In _ _) Hev)).
  destruct (matches m ev) eqn:E; auto. apply Hm in E. destruct ev; try contradiction; now destruct E.
Qed.

(** ** Attributes *)

Lemma quote_free_name n : ValidName n -> ~ In 34%N n.
Proof. intros [_ H] Hi. destruct (H _ Hi) as (_ & _ & X). apply X. unfold ForbiddenChar. simpl. auto. Qed.

Lemma except_in items n x : In x (attributes_except items n) -> In x items.
Proof.
  induction items as [|y l IH]; simpl; auto. destruct (negb _); simpl; tauto.
Qed.
Lemma except_readable a n : ReadableAttrs a -> ReadableAttrs (attributes_except a n).
Proof. intros H x Hx. apply H. eapply except_in; eauto. Qed.
Lemma readable_attrs_snoc a x : ReadableAttrs a -> ReadableAttribute x -> ReadableAttrs (a ++ [x]).
Proof. intros H Hx y Hy. apply in_app_or in Hy as [Hy|[<-|[]]]; auto. Qed.

Lemma add_to_readable a n v sep : ReadableAttrs a -> Writable (id_str n) ->
  ~ In 34%N (enc_str v) -> ~ In 34%N (enc_str sep) -> ReadableAttrs (add_to_attribute a n v sep).
Proof.
  intros Ha Hn Hv Hs. induction a as [|y l IH]; simpl.
  - intros x [<-|[]]. split; auto.
  - assert (ReadableAttribute y /\ ReadableAttrs l) as [Hy Hl].
    { split; [apply Ha; now left|]. intros x Hx. apply Ha. now right. }
    destruct (ident_eqb (a_name y) n).
    + intros x [<-|Hx]; auto. destruct Hy as [Hy1 Hy2]. split; [exact Hy1|]. simpl.
      destruct (a_value y) as [w|]; auto. rewrite !enc_join_str, !in_app_iff. tauto.
    + intros x [<-|Hx]; auto. now apply IH.
Qed.

Lemma split_whitespace_in s w c : In w (split_whitespace s) -> In c w -> In c s.
Proof.
  intros Hw Hc. apply split_whitespace_words in Hw as (pre & post & -> & _). apply in_or_app. right.
  apply in_or_app. auto.
Qed.
Lemma without_class_free classes n acc : (forall w, In w classes -> ~ In 34%N w) -> ~ In 34%N (enc_str acc) ->
  ~ In 34%N (enc_str (without_class_loop classes n acc)).
Proof.
  revert acc. induction classes as [|w l IH]; intros acc Hl Ha; simpl; auto.
  assert (forall w, In w l -> ~ In 34%N w) as Hl' by (intros; apply Hl; now right).
  destruct (negb (identifier_eq n w)); auto. apply IH; auto.
  assert (~ In 34%N w) as Hw by (apply Hl; now left).
  assert (forall e v, enc_str (enc_push_encoded_str e v) = enc_str e ++ v) as Hpush by reflexivity.
  destruct (negb (enc_is_empty acc)); rewrite !Hpush, !in_app_iff; [|tauto].
  intros [[Hi|[Hi|[]]]|Hi]; auto. discriminate.
Qed.
Lemma remove_class_readable a n : ReadableAttrs a -> ReadableAttrs (remove_class a n).
Proof.
  intros Ha. unfold remove_class. destruct (has_class a (id_str n)); auto.
  induction a as [|y l IH]; [exact Ha|]. simpl.
  assert (ReadableAttribute y /\ ReadableAttrs l) as [Hy Hl].
  { split; [apply Ha; now left|]. intros x Hx. apply Ha. now right. }
  specialize (IH Hl). destruct (attribute_remove_class y (id_str n)) as [y'|] eqn:E; auto.
  intros x [<-|Hx]; auto. unfold attribute_remove_class in E.
  destruct (make_without y (id_str n)) as [v|] eqn:Ew; [|now injection E as <-].
  destruct (enc_is_empty v); [discriminate|]. injection E as <-.
  unfold make_without in Ew. destruct (negb _); [discriminate|].
  unfold attribute_classes in Ew. destruct (ident_is_eq _ _); [|discriminate].
  destruct Hy as [Hy1 Hy2]. split; [exact Hy1|]. simpl.
  destruct (a_value y) as [w|]; [|discriminate]. injection Ew as <-.
  apply without_class_free.
  - intros u Hu Hc. apply filter_In in Hu as [Hu _]. apply Hy2. eapply split_whitespace_in; eauto.
  - intros [].
Qed.

Definition cmd_free (c : attr_cmd) : Prop :=
  match c with
  | ARemoveClass _ | ARemoveAttribute _ => True
  | AAddAttribute n v | ASetAttribute n v | AReplaceAttribute n v =>
      Writable (id_str n) /\ forall w, v = Some w -> ~ In 34%N (enc_str w)
  | AAddToAttribute n v sep =>
      Writable (id_str n) /\ ~ In 34%N (enc_str v) /\ ~ In 34%N (enc_str sep)
  end.
Lemma new_readable n v : Writable (id_str n) -> (forall w, v = Some w -> ~ In 34%N (enc_str w)) ->
  ReadableAttribute (Attribute n v).
Proof. intros H1 H2. split; auto. simpl. destruct v; auto. Qed.
Lemma apply_attr_readable c a : cmd_free c -> ReadableAttrs a -> ReadableAttrs (apply_attr c a).
Proof.
  destruct c; simpl; intros Hc Ha.
  - now apply remove_class_readable.
  - now apply except_readable.
  - destruct Hc. apply readable_attrs_snoc; auto. now apply new_readable.
  - destruct Hc. unfold replace_attribute. destruct (negb _).
    + apply readable_attrs_snoc; [now apply except_readable|now apply new_readable].
    + now apply except_readable.
  - destruct Hc as (H1 & H2 & H3). now apply add_to_readable.
  - destruct Hc. unfold set_attribute. apply readable_attrs_snoc; [now apply except_readable|now apply new_readable].
Qed.

(** ** Elements *)

Lemma readable_whole b evs : Readable b evs -> Whole evs -> exists x, ReadableTree b x /\ IsElement x /\ evs = tree_events x.
Proof.
  intros (F & HF & ->) Hw. destruct F as [|x F]; [destruct Hw|].
  apply rf_cons in HF as [Hx HF]. pose proof (readable_proper_tree _ _ Hx) as Hp.
  assert (IsElement x /\ F = []) as [Hi ->].
  { rewrite events_cons in Hw. destruct x as [ev|t a kids c].
    - simpl in Hw. assert (events F = [] -> F = []) as HnF.
      { destruct F as [|[] F]; [auto|discriminate|discriminate]. }
      destruct ev; simpl in Hw; try contradiction.
      + inversion Hp; subst. contradiction.
      + destruct (events F) eqn:E; [|contradiction]. split; [exact I|auto].
      + destruct (events F) eqn:E; [|contradiction]. split; [exact I|auto].
    - split; [exact I|]. rewrite tree_events_elem in Hw. cbn [app] in Hw. destruct Hw as (_ & k & d & E & _ & Hk).
      rewrite <- app_assoc in E. cbn [app] in E. inversion Hp; subst.
      destruct F as [|y F]; [reflexivity|]. exfalso. set (l := events (y :: F)) in *.
      assert (l <> []) as Hne by (unfold l; rewrite events_cons; destruct y; discriminate).
      destruct (exists_last Hne) as (l' & z & El). rewrite El in E.
      change (ClosingTag c :: l' ++ [z]) with ((ClosingTag c :: l') ++ [z]) in E. rewrite app_assoc in E.
      apply app_inj_tail in E as [E _]. rewrite <- E, nest_app, proper_nest in Hk by assumption. discriminate. }
  exists x. split; auto. split; auto. now rewrite events_single.
Qed.

(** [g] keeps readable templates and, if [i], raw contents. *)
Definition RKeeps (b : bool) (g : trace -> trace) (e i : bool) : Prop :=
  forall x y, Good e (x, None) -> g (x, None) = (y, None) ->
    (Readable b x -> Readable b y) /\ (i = true -> forall r, RawContents r x -> RawContents r y).

Lemma rkeeps_comp b f g e1 e2 e3 i : Keeps f e1 e2 -> Keeps g e2 e3 -> RKeeps b f e1 i -> RKeeps b g e2 i ->
  RKeeps b (fun x => g (f x)) e1 i.
Proof.
  intros Kf Kg Rf Rg x y Hx E. destruct (Kf _ Hx) as [G1 _]. destruct (f (x, None)) as [z t] eqn:Ef.
  destruct t as [err|].
  - exfalso. apply (proj2 (Kg _ G1)); [discriminate|]. now rewrite E.
  - destruct (Rf x z Hx Ef) as [A1 A2]. destruct (Rg z y G1 E) as [B1 B2]. split; auto.
Qed.
Lemma rkeeps_id b e i : RKeeps b (fun x => x) e i.
Proof. intros x y _ E. injection E as ->. auto. Qed.
Lemma rkeeps_error b e i err : RKeeps b (fun _ => ([], Some err)) e i.
Proof. intros x y _ E. discriminate. Qed.

Lemma rkeeps_remove b e i : RKeeps b d_remove e i.
Proof.
  intros x y _ E. injection E as <-. split; intros; [apply readable_nil|apply raw_nil].
Qed.
Definition ContentSafe (b i : bool) (c : content) : Prop :=
  forall evs, d_content c = (evs, None) -> if i then PlainText evs else Readable b evs.
Lemma content_safe_readable b i c evs : ContentSafe b i c -> d_content c = (evs, None) -> Readable b evs.
Proof. intros H E. specialize (H evs E). destruct i; auto. now apply plain_readable. Qed.
Lemma rkeeps_prepend b c e i : ContentSafe b i c -> RKeeps b (fun x => tapp (d_content c) x) e i.
Proof.
  intros Hc x y _ E. destruct (d_content c) as [evs [err|]] eqn:Ec; [discriminate|]. injection E as <-. split.
  - apply readable_app. eapply content_safe_readable; eauto.
  - intros -> r Hr. specialize (Hc _ Ec). simpl in Hc.
    pose proof (raw_around r evs x [] Hc Hr plain_nil) as X. now rewrite app_nil_r in X.
Qed.
Lemma rkeeps_append b c e i : ContentSafe b i c -> RKeeps b (fun x => tapp x (d_content c)) e i.
Proof.
  intros Hc x y _ E. destruct (d_content c) as [evs [err|]] eqn:Ec; [discriminate|]. injection E as <-. split.
  - intros Hx. apply readable_app; auto. eapply content_safe_readable; eauto.
  - intros -> r Hr. specialize (Hc _ Ec). exact (raw_around r [] x evs plain_nil Hr Hc).
Qed.
Lemma rkeeps_replace b c e i : ContentSafe b i c -> RKeeps b (fun x => tapp (d_content c) (d_remove x)) e i.
Proof.
  intros Hc x y _ E. destruct (d_content c) as [evs [err|]] eqn:Ec; [discriminate|].
  unfold tapp in E. simpl in E. injection E as <-. rewrite app_nil_r. split.
  - intros _. eapply content_safe_readable; eauto.
  - intros -> r _. specialize (Hc _ Ec). now apply plain_raw.
Qed.

Lemma repeat_ok (gs : list (trace -> trace)) (x y : list event) :
  fold_right (fun g z => tapp (g (x, None)) z) ([], None) gs = (y, None) ->
  exists rs : list (list event), Forall2 (fun g r => g (x, None) = (r, None)) gs rs /\ y = List.concat rs.
Proof.
  revert y. induction gs as [|g gs IH]; intros y E; simpl in E.
  - injection E as <-. exists []. split; [constructor|reflexivity].
  - destruct (g (x, None)) as [r [err|]] eqn:Eg; [discriminate|].
    destruct (fold_right _ _ gs) as [y' t] eqn:Ef. unfold tapp in E. simpl in E. injection E as <- ->.
    destruct (IH y' eq_refl) as (rs & H1 & ->). exists (r :: rs). split; [constructor; auto|reflexivity].
Qed.
Lemma rkeeps_repeat b gs e i : (forall g, In g gs -> RKeeps b g e i) -> (i && Nat.ltb 1 (length gs) = false) ->
  RKeeps b (d_repeat gs) e i.
Proof.
  intros Hgs Hl x y Hx E. apply repeat_ok in E as (rs & Hrs & ->). split.
  - intros Hr. clear Hl. induction Hrs as [|g r gs rs Hg _ IH]; [apply readable_nil|]. simpl.
    apply readable_app.
    + destruct (Hgs g (or_introl eq_refl) x r Hx Hg); auto.
    + apply IH. intros g' Hg'. apply Hgs. now right.
  - intros -> r Hr. simpl in Hl. apply Nat.ltb_ge in Hl.
    destruct Hrs as [|g r' gs rs Hg Hrs]; [apply raw_nil|].
    simpl in Hl. destruct Hrs; [|simpl in Hl; lia]. simpl. rewrite app_nil_r.
    destruct (Hgs g (or_introl eq_refl) x r' Hx Hg); auto.
Qed.

Lemma events_leaves evs : events (map Leaf evs) = evs.
Proof. induction evs as [|ev l IH]; [reflexivity|]. simpl. now f_equal. Qed.
Lemma rkeeps_contents b g i : RKeeps b g false b -> RKeeps b (d_contents g) true i.
Proof.
  intros Hg x y Hx E. split; [|intros _ r Hr; destruct (raw_not_whole _ _ Hr Hx)].
  intros Hr. destruct (readable_whole b x Hr Hx) as (tr & Ht & Hi & ->).
  assert (forall t a kids c k, ReadableTree b (Elem t a kids c) -> g (events kids, None) = (k, None) ->
            Readable b (OpeningTag t a :: k ++ [ClosingTag c])) as Helem.
  { intros t a kids c k Hel Ek. pose proof (readable_proper_tree _ _ Hel) as Hp. inversion Hp; subst.
    destruct (Hg (events kids) k) as [K1 K2]; auto. { now apply proper_nest. }
    inversion Hel; subst.
    - destruct (K1 ltac:(eexists; eauto)) as (G & HG & ->).
      apply (readable_tree b (Elem t a G c)). now apply Rd_elem.
    - rewrite <- (events_leaves k). apply (readable_tree true (Elem t a (map Leaf k) c)).
      eapply Rd_raw; eauto. rewrite events_leaves. apply K2; auto. }
  inversion Ht; subst; try contradiction.
  - simpl in E. injection E as <-. now apply (readable_tree b (Leaf (VoidTag t a))).
  - simpl tree_events in E. unfold d_contents in E.
    destruct (g ([], None)) as [k [err|]] eqn:Ek; [discriminate|]. unfold tapp in E. simpl in E. injection E as <-.
    apply (Helem t a []); auto. destruct (mode_total (id_str t)) as [(r & Hr1 & Hr2)|Hnr].
    + destruct b.
      * eapply Rd_raw; eauto using same_name_refl; [apply H|apply raw_nil].
      * exfalso. apply H2; auto. exists r. auto.
    + apply Rd_elem; auto using same_name_refl.
      * intros (r & Hr1 & Hr2). exact (Hnr r Hr1 Hr2).
      * apply H.
      * apply rf_nil.
  - rewrite tree_events_elem in E. unfold d_contents in E. rewrite removelast_last, last_last in E.
    destruct (g (events kids, None)) as [k [err|]] eqn:Ek; [discriminate|]. unfold tapp in E. simpl in E.
    injection E as <-. eapply Helem; eauto.
  - rewrite tree_events_elem in E. unfold d_contents in E. rewrite removelast_last, last_last in E.
    destruct (g (events kids, None)) as [k [err|]] eqn:Ek; [discriminate|]. unfold tapp in E. simpl in E.
    injection E as <-. eapply Helem; eauto.
Qed.
Lemma rkeeps_attr b c i : cmd_free c -> RKeeps b (d_attr c) true i.
Proof.
  intros Hc x y Hx E. split; [|intros _ r Hr; destruct (raw_not_whole _ _ Hr Hx)].
  intros Hr. destruct (readable_whole b x Hr Hx) as (tr & Ht & Hi & ->).
  inversion Ht; subst; try contradiction.
  - injection E as <-. apply (readable_tree b (Leaf (VoidTag t _))). constructor; auto using apply_attr_readable.
  - injection E as <-. apply (readable_tree b (Leaf (SelfClosedTag t _))). constructor; auto using apply_attr_readable.
  - injection E as <-. apply (readable_tree b (Elem t (apply_attr c a) kids c0)).
    apply Rd_elem; auto using apply_attr_readable.
  - injection E as <-. apply (readable_tree true (Elem t (apply_attr c a) kids c0)).
    eapply Rd_raw; eauto using apply_attr_readable.
Qed.

(** ** Selections *)

Lemma selects_text m : ElementSelector m -> forall F xs rs out, Selects m F xs rs out -> Forall TextEvent (events F) ->
  xs = [] /\ rs = [] /\ out = events F.
Proof.
  intros Hm F xs rs out H. induction H; intros Ht; auto; rewrite events_cons in Ht; apply Forall_app in Ht as [Ht1 Ht2].
  - exfalso. apply Hm in H. destruct x as [ev|]; inversion Ht1; subst; [|contradiction].
    destruct ev; try contradiction; now apply H.
  - destruct (IHSelects Ht2) as (-> & -> & ->). auto.
  - inversion Ht1. contradiction.
Qed.
Lemma selects_readable b m : ElementSelector m -> forall F xs rs out, Selects m F xs rs out -> ReadableForest b F ->
  ReadableForest b xs /\ (Forall (Readable b) rs -> Readable b out).
Proof.
  intros Hm F xs rs out H. induction H; intros HF.
  - split; [apply rf_nil|]. intros _. apply readable_nil.
  - apply rf_cons in HF as [Hx HF]. destruct (IHSelects HF) as [I1 I2]. split; [now apply rf_cons|].
    intros Hr. inversion Hr; subst. apply readable_app; auto.
  - apply rf_cons in HF as [Hx HF]. destruct (IHSelects HF) as [I1 I2]. split; auto.
    intros Hr. apply (readable_app b [ev] out); auto. now apply (readable_tree b (Leaf ev)).
  - apply rf_cons in HF as [Hx HF]. destruct (IHSelects2 HF) as [I1 I2]. inversion Hx; subst.
    + destruct (IHSelects1 ltac:(assumption)) as [J1 J2]. split; [now apply rf_app|].
      intros Hr. apply Forall_app in Hr as [Hr1 Hr2]. destruct (J2 Hr1) as (G & HG & ->).
      replace (OpeningTag t a :: events G ++ ClosingTag c :: out2) with (tree_events (Elem t a G c) ++ out2).
      * apply readable_app; auto. apply readable_tree. now apply Rd_elem.
      * rewrite tree_events_elem. cbn [app]. now rewrite <- app_assoc.
    + match goal with K : RawContents _ (events kids) |- _ => pose proof K as Hraw end.
      destruct (selects_text m Hm _ _ _ _ H0 (proj1 Hraw)) as (-> & -> & ->). split; auto.
      intros Hr. simpl in Hr.
      replace (OpeningTag t a :: events kids ++ ClosingTag c :: out2) with (tree_events (Elem t a kids c) ++ out2).
      * apply readable_app; auto. now apply readable_tree.
      * rewrite tree_events_elem. cbn [app]. now rewrite <- app_assoc.
Qed.
Lemma selects_direct_readable b m F xs rs out : SelectsDirect m F xs rs out -> ReadableForest b F ->
  ReadableForest b xs /\ (Forall (Readable b) rs -> Readable b out).
Proof.
  induction 1; intros HF.
  - split; [apply rf_nil|]. intros _. apply readable_nil.
  - apply rf_cons in HF as [Hx HF]. destruct (IHSelectsDirect HF) as [I1 I2]. split; [now apply rf_cons|].
    intros Hr. inversion Hr; subst. apply readable_app; auto.
  - apply rf_cons in HF as [Hx HF]. destruct (IHSelectsDirect HF) as [I1 I2]. split; auto.
    intros Hr. apply readable_app; auto. now apply readable_tree.
Qed.

Lemma passes_or_fails g calls xs : Passes g calls xs \/ exists err, Fails g calls xs err.
Proof.
  revert calls. induction xs as [|x xs IH]; intros calls.
  - left. intros [] ? ?; discriminate.
  - destruct (snd (g calls (tree_events x, None))) as [err|] eqn:E.
    + right. exists err, 0. split; [|intros j ? Hj; lia]. exists x. rewrite Nat.add_0_r. auto.
    + destruct (IH (S calls)) as [H|(err & k & (y & Hy & He) & Hk)].
      * left. intros [|j] y Hy; [injection Hy as <-; now rewrite Nat.add_0_r|].
        rewrite Nat.add_succ_r. apply (H j y Hy).
      * right. exists err, (S k). split.
        -- exists y. rewrite Nat.add_succ_r. auto.
        -- intros [|j] z Hj Hz; [injection Hz as <-; now rewrite Nat.add_0_r|].
           rewrite Nat.add_succ_r. apply (Hk j z); auto. lia.
Qed.
Lemma rkeeps_select b m g direct e i : ElementSelector m -> (forall k, RKeeps b (g k) true false) ->
  RKeeps b (fun x => d_select (length (fst x)) m g direct 0 0 (fst x) (snd x)) e i.
Proof.
  intros Hm Hg x y Hx E. simpl in E. split.
  - intros (F & HF & ->). pose proof (readable_proper _ _ HF) as HP.
    destruct (selection_in_exists direct m F) as [xs Hxs].
    destruct (passes_or_fails g 0 xs) as [H|[err H]].
    + destruct (passes_turns g 0 xs H) as (rs & Hl & Ht). destruct (Hxs rs (eq_sym Hl)) as [out Ho].
      rewrite (selects_in_trace m g direct F xs rs out Hm Ho HP Ht) in E. injection E as <-.
      assert (ReadableForest b xs /\ (Forall (Readable b) rs -> Readable b out)) as [I1 I2].
      { destruct direct; [eapply selects_direct_readable|eapply selects_readable]; eauto. }
      apply I2. apply Forall_forall. intros r Hr. apply elem_of_list_In, In_nth_error in Hr as [k Hk].
      destruct (nth_both rs xs k r (eq_sym Hl) Hk) as [z Hz].
      assert (In z xs) as Hin by (eapply nth_error_In; eauto).
      destruct (selects_in_element direct m F xs rs out z Hm Ho HP Hin) as [Pz Ez].
      destruct (Hg k (tree_events z) r) as [R _].
      * now apply good_element.
      * exact (Ht k z r Hz Hk).
      * apply R. apply readable_tree. auto.
    + exfalso. destruct (Hxs (repeat [] (length xs))) as [out Ho]; [apply repeat_length|].
      pose proof (selects_in_fails m g direct F xs _ out err Hm Ho HP H) as X. rewrite E in X. discriminate.
  - intros _ r [H1 H2]. assert (d_select (length x) m g direct 0 0 x None = (x, None)) as Ex.
    { apply (dsel_none m g direct None x [] [] 0 0); auto; [now apply text_nest|now apply text_no_match]. }
    rewrite Ex in E. injection E as <-. now split.
Qed.

Lemma single_element m ev rest st : ElementSelector m -> matches m ev = true -> nest st (ev :: rest) = Some [] ->
  exists elem rest', d_single ev rest None = ((elem, None), rest') /\ elem ++ rest' = ev :: rest /\ elem <> [] /\
    nest st rest' = Some [].
Proof.
  intros Hm He Hn. pose proof (single_good st ev rest [] None Hn (fun _ => eq_refl)) as Hs.
  apply Hm in He. destruct (d_single ev rest None) as [[elem t] rest'] eqn:Ed. destruct Hs as [Hg [(H1 & H2 & H3)|H]].
  - simpl in *. subst t. exists elem, rest'. repeat split; auto. intros ->. exact Hg.
  - exfalso. apply H. simpl. destruct ev; simpl in *; try (now destruct He); try congruence.
    destruct (d_until tag 0 rest) as [[]|]; congruence.
Qed.
Lemma dsel_id m g direct : ElementSelector m -> forall n evs level calls st, length evs <= n ->
  (forall k x, calls <= k -> g k x = x) ->
  nest st evs = Some [] -> level = length st ->
  d_select n m g direct level calls evs None = (evs, None).
Proof.
  intros Hm. induction n as [|n IH]; intros evs level calls st Hl Hg Hn Hlev.
  { destruct evs; [reflexivity|simpl in Hl; lia]. }
  destruct evs as [|ev rest]; [reflexivity|]. simpl in Hl. cbn [d_select].
  destruct (include direct level && matches m ev) eqn:Em.
  - apply andb_true_iff in Em as [_ Em].
    destruct (single_element m ev rest st Hm Em Hn) as (elem & rest' & -> & Happ & Hne & Hn').
    rewrite Hg by lia. rewrite (IH rest' level (S calls) st); auto.
    + unfold tapp. simpl. now rewrite Happ.
    + apply (f_equal (@length event)) in Happ. rewrite app_length in Happ. destruct elem; [easy|]. simpl in Happ. lia.
    + intros k x Hk. apply Hg. lia.
  - simpl in Hn. destruct (nest1 st ev) as [st1|] eqn:E1; [|discriminate].
    pose proof (nest1_adjust _ _ _ E1) as Ha. rewrite <- Hlev in Ha. rewrite Ha.
    rewrite (IH rest (length st1) calls st1); auto. lia.
Qed.
Definition once_builder (g : trace -> trace) (k : nat) : trace -> trace :=
  match k with O => g | S _ => fun x => x end.
Lemma once_select m g direct : ElementSelector m -> forall n evs level st, length evs <= n ->
  nest st evs = Some [] -> level = length st ->
  d_select_once m g direct level evs None = d_select n m (once_builder g) direct level 0 evs None.
Proof.
  intros Hm. induction n as [|n IH]; intros evs level st Hl Hn Hlev.
  { destruct evs; [reflexivity|simpl in Hl; lia]. }
  destruct evs as [|ev rest]; [reflexivity|]. simpl in Hl. cbn [d_select d_select_once].
  destruct (include direct level && matches m ev) eqn:Em.
  - apply andb_true_iff in Em as [_ Em].
    destruct (single_element m ev rest st Hm Em Hn) as (elem & rest' & -> & Happ & Hne & Hn').
    rewrite (dsel_id m (once_builder g) direct Hm n rest' level 1 st); auto.
    + apply (f_equal (@length event)) in Happ. rewrite app_length in Happ. destruct elem; [easy|]. simpl in Happ. lia.
    + intros [|k] x Hk; [lia|reflexivity].
  - simpl in Hn. destruct (nest1 st ev) as [st1|] eqn:E1; [|discriminate].
    pose proof (nest1_adjust _ _ _ E1) as Ha. rewrite <- Hlev in Ha. rewrite Ha.
    f_equal. apply (IH rest (length st1) st1); auto. lia.
Qed.
Lemma rkeeps_select_once b m g direct e i : ElementSelector m -> RKeeps b g true false ->
  RKeeps b (fun x => d_select_once m g direct 0 (fst x) (snd x)) e i.
Proof.
  intros Hm Hg x y Hx E. simpl in E.
  rewrite (once_select m g direct Hm (length x) x 0 []) in E; auto; [|now apply good_false in Hx].
  eapply (rkeeps_select b m (once_builder g) direct e i); eauto.
  intros [|k]; [exact Hg|apply rkeeps_id].
Qed.

(** ** Pipelines *)

Definition SafeP (b i : bool) (p : pipeline) : Prop := forall k o, OccursIn b i p k o -> SafeCall b k o.
Lemma safe_here b i p o : SafeP b i p -> In o p -> SafeCall b i o.
Proof. intros H Ho. apply H. now apply OccursIn_here. Qed.
Lemma safe_sub b i p o j q : SafeP b i p -> In o p -> SubIn b i o j q -> SafeP b j q.
Proof. intros H Ho Hq k o' Ho'. apply H. eapply OccursIn_deeper; eauto. Qed.
Lemma safe_tail b i o p : SafeP b i (o :: p) -> SafeP b i p.
Proof.
  intros H k o' Ho. apply H. inversion Ho; subst.
  - apply OccursIn_here. now right.
  - eapply OccursIn_deeper; eauto. now right.
Qed.

Lemma rkeeps_pipe_of b (p : pipeline) :
  (forall o, In o p -> forall e e' i, typed_op e o e' -> Well o -> SafeP b i [o] -> RKeeps b (d_op o) e i) ->
  forall e e' i, typed e p e' -> WellP p -> SafeP b i p -> RKeeps b (d_pipe p) e i.
Proof.
  induction p as [|o p IH]; intros Ho e e' i Ht Hw Hs; inversion Ht; subst.
  - apply rkeeps_id.
  - apply wellp_cons in Hw as [Hw1 Hw2].
    apply (rkeeps_comp b (d_op o) (d_pipe p) e e2 e').
    + now apply keeps_op.
    + now apply keeps_pipe.
    + eapply Ho; eauto; [now left|]. intros k o' Ho'. apply Hs. inversion Ho'; subst.
      * apply OccursIn_here. now destruct H as [<-|[]]; left.
      * eapply OccursIn_deeper; eauto. now destruct H as [<-|[]]; left.
    + eapply IH; eauto using safe_tail. intros o' Ho'. apply Ho. now right.
Qed.
Lemma content_safe b i o c : SafeCall b i o -> op_content o = Some c -> ContentSafe b (Into b i o) c.
Proof.
  intros H Hc evs E. eapply (safe_content _ _ _ H); eauto. pose proof (content_gives c) as Hg.
  rewrite E in Hg. exact Hg.
Qed.
Lemma rkeeps_named b n c i : (forall m, n = inl m -> cmd_free (c m)) -> RKeeps b (d_named n c) true i.
Proof.
  intros H. destruct n as [n|err]; [|apply rkeeps_error]. apply rkeeps_attr. auto.
Qed.
Lemma rkeeps_as_template b f e i :
  (forall x y, f x = inl y -> (Readable b x -> Readable b y) /\ (i = true -> forall r, RawContents r x -> RawContents r y)) ->
  RKeeps b (d_as_template f) e i.
Proof.
  intros H x y _ E. unfold d_as_template in E. simpl in E. destruct (f x) as [z|err] eqn:Ef; [|discriminate].
  injection E as <-. auto.
Qed.

Lemma class_writable : Writable (lit "class").
Proof.
  split; [apply validate_iff; vm_compute; eauto|]. intros c Hc.
  repeat (destruct Hc as [<-|Hc]; [intros Hd; vm_compute in Hd; intuition discriminate|]). destruct Hc.
Qed.
Lemma id_writable : Writable (lit "id").
Proof.
  split; [apply validate_iff; vm_compute; eauto|]. intros c Hc.
  repeat (destruct Hc as [<-|Hc]; [intros Hd; vm_compute in Hd; intuition discriminate|]). destruct Hc.
Qed.
Lemma space_free : ~ In 34%N (enc_str (enc_from_unencoded_static_str (lit " "))).
Proof. vm_compute. intuition discriminate. Qed.
Lemma rkeeps_op b : forall o e e' i, typed_op e o e' -> Well o -> SafeP b i [o] -> RKeeps b (d_op o) e i.
Proof.
  apply (op_sub_ind (fun o => forall e e' i, typed_op e o e' -> Well o -> SafeP b i [o] -> RKeeps b (d_op o) e i)).
  intros o IH e e' i Ht Hw Hs.
  assert (forall p e e' j, Sub o p -> SubIn b i o j p -> typed e p e' -> RKeeps b (d_pipe p) e j) as Hp.
  { intros p e1 e2 j Hsub Hin Hty. eapply rkeeps_pipe_of; eauto.
    - eapply well_sub; eauto.
    - eapply safe_sub; eauto. now left. }
  clear IH. pose proof (well_args _ Hw) as Hargs.
  pose proof (safe_here b i [o] o Hs (or_introl eq_refl)) as Hsafe.
  assert (forall bs e j, (forall p, In p bs -> Sub o p /\ SubIn b i o j p) ->
    j && Nat.ltb 1 (length bs) = false ->
    Forall (fun p => exists e', typed e p e') bs ->
    RKeeps b (d_repeat (map (fun p x => d_pipe p x) bs)) e j) as Hrep.
  { intros bs e0 j Hsub Hl Hf. apply rkeeps_repeat; [|now rewrite map_length].
    intros g Hg. apply in_map_iff in Hg as (p & <- & Hin).
    rewrite Forall_forall in Hf. destruct (Hf p) as [e1 Hp1]; [now apply elem_of_list_In|].
    destruct (Hsub p Hin). eapply Hp; eauto. }
  pose proof (safe_repeat _ _ _ Hsafe) as Hrepeat.
  pose proof (fun c => content_safe b i o c Hsafe) as Hcontent.
  pose proof (safe_selector _ _ _ Hsafe) as Hsel.
  pose proof (safe_name _ _ _ Hsafe) as Hname.
  pose proof (safe_value _ _ _ Hsafe) as Hvalue.
  inversion Ht; subst; simpl in Hrepeat; try (apply rkeeps_error).
  - change (RKeeps b (d_pipe p) e i). eapply Hp; simpl; eauto.
  - apply rkeeps_id.
  - apply rkeeps_id.
  - change (RKeeps b (d_pipe p) e i). eapply Hp; simpl; eauto.
  - apply (rkeeps_as_template b f). intros x y E. exact (safe_function _ _ _ Hsafe f x y eq_refl E).
  - destruct sel as [m|err]; [|apply rkeeps_error]. apply (rkeeps_select b m (fun k => d_pipe (b0 k))); [now apply Hsel|].
    intros k. destruct (H k) as [e1 He1]. eapply Hp; simpl; eauto.
  - destruct sel as [m|err]; [|apply rkeeps_error]. apply (rkeeps_select_once b m (d_pipe p)); [now apply Hsel|].
    eapply Hp; simpl; eauto.
  - apply rkeeps_remove.
  - apply rkeeps_prepend. now apply Hcontent.
  - apply rkeeps_append. now apply Hcontent.
  - apply rkeeps_replace. now apply Hcontent.
  - apply (Hrep bs); simpl; auto.
  - destruct bs as [|b0 bs].
    + change (RKeeps b (d_pipe p) e i). eapply Hp; simpl; eauto.
    + apply (Hrep (b0 :: bs)); simpl; auto.
  - apply (rkeeps_contents b (d_pipe p)). eapply Hp; simpl; eauto.
  - destruct sel as [m|err]; [|apply rkeeps_error].
    apply (rkeeps_contents b (fun x => d_select (length (fst x)) m (fun k => d_pipe (b0 k)) direct 0 0 (fst x) (snd x))).
    apply rkeeps_select; [now apply Hsel|]. intros k. destruct (H k) as [e1 He1]. eapply Hp; simpl; eauto.
  - destruct sel as [m|err]; [|apply rkeeps_error].
    apply (rkeeps_contents b (fun x => d_select_once m (d_pipe p) direct 0 (fst x) (snd x))).
    apply rkeeps_select_once; [now apply Hsel|]. eapply Hp; simpl; eauto.
  - apply (rkeeps_contents b d_remove), rkeeps_remove.
  - apply (rkeeps_contents b (fun x => tapp (d_content c) x)). apply rkeeps_prepend. now apply Hcontent.
  - apply (rkeeps_contents b (fun x => tapp x (d_content c))). apply rkeeps_append. now apply Hcontent.
  - apply (rkeeps_contents b (fun x => tapp (d_content c) (d_remove x))). apply rkeeps_replace. now apply Hcontent.
  - apply (rkeeps_contents b (d_repeat (map (fun p x => d_pipe p x) bs))). apply (Hrep bs); simpl; auto.
  - destruct bs as [|b0 bs].
    + change (RKeeps b (d_pipe p) true i). eapply Hp; simpl; eauto.
    + apply (rkeeps_contents b (d_repeat (map (fun p x => d_pipe p x) (b0 :: bs)))).
      apply (Hrep (b0 :: bs)); simpl; auto.
  - apply rkeeps_named. intros n ->. split; [now apply Hname|]. intros w ->. now apply Hvalue.
  - apply rkeeps_named. intros n ->. split; [now apply Hname|]. split; apply Hvalue; simpl; auto.
  - apply rkeeps_named. intros n ->. split; [now apply Hname|]. intros w [= <-]. now apply Hvalue.
  - apply rkeeps_named. intros n ->. split; [now apply Hname|]. intros w ->. now apply Hvalue.
  - apply rkeeps_named. intros n ->. exact I.
  - apply rkeeps_named. intros n ->. split; [apply class_writable|]. split; [|apply space_free].
    apply quote_free_name. now apply Hargs.
  - apply rkeeps_named. intros n ->. exact I.
  - apply rkeeps_attr. exact I.
  - apply rkeeps_named. intros n ->. split; [apply id_writable|]. intros w [= <-].
    apply quote_free_name. now apply Hargs.
Qed.
Lemma rkeeps_pipe b p e e' i : typed e p e' -> WellP p -> SafeP b i p -> RKeeps b (d_pipe p) e i.
Proof. apply rkeeps_pipe_of. intros o _ e0 e1 j. apply rkeeps_op. Qed.

Lemma safe_pipeline b evs p e r : Readable b evs -> typed false p e -> ValidArgs p -> SafeCalls b p ->
  Gives evs p (inl r) -> Readable b r.
Proof.
  intros Hr Ht Hv Hs Hg. pose proof (good_template _ (readable_well_nested _ _ Hr)) as Hgood.
  pose proof (gives_trace _ _ _ _ _ Hgood Ht Hv Hg) as E.
  destruct (rkeeps_pipe b p false e false Ht (valid_args_well _ Hv) Hs evs r Hgood E) as [H _]. auto.
Qed.
