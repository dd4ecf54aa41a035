(** Equations between calls. *)
From Coq Require Import String ZArith List Bool.
From stdpp Require Import gmap.
From Verif Require Import Text Event Input Parse Selector Machine Template.
From Verif Require Import SpecText SpecAttr SpecParse SpecTree SpecTransform SpecOps SpecLaws.
From Verif Require Import TextProofs AttrProofs AttrProofs2 Trace TraceProofs PipelineProofs TreeProofs.
From Verif Require Import ErrorProofs SelectionProofs OpProofs LawProofs.
Local Open Scope nat_scope.

Lemma equal_of e p q ep eq : typed e p ep -> typed e q eq -> ValidArgs p -> ValidArgs q ->
  (forall evs, Good e (evs, None) ->
     outcome (d_pipe p (evs, None)) = outcome (d_pipe q (evs, None))) -> Equal e p q.
Proof.
  intros Tp Tq Vp Vq H evs r Hs. apply selection_good in Hs.
  rewrite (gives_iff evs p e ep r Hs Tp Vp), (gives_iff evs q e eq r Hs Tq Vq), (H evs Hs). reflexivity.
Qed.
Lemma equal_sym e p q : Equal e p q -> Equal e q p.
Proof. intros H evs r Hs. symmetry. now apply H. Qed.
Lemma equal_trans e p q r : Equal e p q -> Equal e q r -> Equal e p r.
Proof. intros H H' evs x Hs. rewrite (H evs x Hs). now apply H'. Qed.
Lemma equal_agree e p q : Equal e p q -> Agree e p q.
Proof. intros H evs out. apply H. Qed.

(** ** Calls that forget their selection *)

Lemma never_fails_trace e p e' evs : typed e p e' -> ValidArgs p -> NeverFails e p ->
  Good e (evs, None) -> exists out, d_pipe p (evs, None) = (out, None).
Proof.
  intros Ht Hv Hn Hg. destruct (Hn evs (good_selection e _ Hg eq_refl)) as [out H].
  exists out. eapply gives_trace; eauto.
Qed.
Lemma typed_app e p e1 q e2 : typed e p e1 -> typed e1 q e2 -> typed e (p ++ q) e2.
Proof. induction 1; simpl; auto. intros. econstructor; eauto. Qed.
Lemma remove_valid : ValidArgs [ORemove].
Proof. apply valid_args_plain; simpl; auto; discriminate. Qed.

Lemma remove_absorbs e p e' : typed e p e' -> ValidArgs p -> NeverFails e p ->
  Equal e (p ++ [ORemove]) [ORemove].
Proof.
  intros Ht Hv Hn. eapply (equal_of _ _ _ false false).
  - eapply typed_app; eauto. apply typed_one. constructor.
  - apply typed_one. constructor.
  - apply valid_args_app; auto using remove_valid.
  - apply remove_valid.
  - intros evs Hg. destruct (never_fails_trace e p e' evs Ht Hv Hn Hg) as [out E].
    rewrite d_pipe_app, E. reflexivity.
Qed.
Lemma replace_absorbs e p e' c : typed e p e' -> ValidArgs p -> NeverFails e p ->
  ValidArgs [OReplace c] -> Equal e (p ++ [OReplace c]) [OReplace c].
Proof.
  intros Ht Hv Hn Hc. eapply (equal_of _ _ _ false false); auto.
  - eapply typed_app; eauto. apply typed_one. constructor.
  - apply typed_one. constructor.
  - now apply valid_args_app.
  - intros evs Hg. destruct (never_fails_trace e p e' evs Ht Hv Hn Hg) as [out E].
    rewrite d_pipe_app, E. reflexivity.
Qed.
Lemma same_content_valid o o' c : op_content o = Some c -> op_content o' = Some c ->
  ValidArgs [o] -> ValidArgs [o'].
Proof.
  intros H H' (_ & V2 & _ & V4). eapply valid_args_content; eauto.
  - intros evs Hg. apply (V2 o); [apply Occurs_here; now left|]. exists c. auto.
  - intros evs Hg. apply (V4 o); [apply Occurs_here; now left|]. exists c. auto.
Qed.
Lemma replace_remove_append e c : ValidArgs [OReplace c] -> Equal e [OReplace c] [ORemove; OAppend c].
Proof.
  intros Hc. eapply (equal_of _ _ _ false false); auto.
  - apply typed_one. constructor.
  - econstructor; [constructor|]. apply typed_one. constructor.
  - apply (valid_args_app [ORemove]); [apply remove_valid|].
    now apply (same_content_valid (OReplace c) (OAppend c) c).
  - intros evs _. simpl. unfold d_remove. simpl. rewrite tapp_nil_l.
    destruct (d_content c) as [x [err|]]; [reflexivity|]. unfold tapp, outcome. simpl. now rewrite app_nil_r.
Qed.
Lemma replace_remove_prepend e c : ValidArgs [OReplace c] -> Equal e [OReplace c] [ORemove; OPrepend c].
Proof.
  intros Hc. eapply (equal_of _ _ _ false false); auto.
  - apply typed_one. constructor.
  - econstructor; [constructor|]. apply typed_one. constructor.
  - apply (valid_args_app [ORemove]); [apply remove_valid|].
    now apply (same_content_valid (OReplace c) (OPrepend c) c).
Qed.

(** ** Content before and after *)

Lemma prepend_append e a b : ValidArgs [OPrepend a] -> ValidArgs [OAppend b] ->
  Equal e [OPrepend a; OAppend b] [OAppend b; OPrepend a].
Proof.
  intros Ha Hb. eapply (equal_of _ _ _ false false).
  - econstructor; [constructor|]. apply typed_one. constructor.
  - econstructor; [constructor|]. apply typed_one. constructor.
  - now apply (valid_args_app [OPrepend a]).
  - now apply (valid_args_app [OAppend b]).
  - intros evs _. simpl. now rewrite tapp_assoc.
Qed.
Lemma append_append e a b c x y : ContentGives a (inl x) -> ContentGives b (inl y) ->
  ContentGives c (inl (x ++ y)) -> ValidArgs [OAppend a] -> ValidArgs [OAppend b] ->
  Equal e [OAppend a; OAppend b] [OAppend c].
Proof.
  intros Ga Gb Gc Ha Hb. eapply (equal_of _ _ _ false false).
  - econstructor; [constructor|]. apply typed_one. constructor.
  - apply typed_one. constructor.
  - now apply (valid_args_app [OAppend a]).
  - eapply valid_args_ok; [reflexivity|exact Gc|].
    assert (forall d z, ValidArgs [OAppend d] -> ContentGives d (inl z) -> WellNested z) as W.
    { intros d z (_ & V & _) Gd. apply (V (OAppend d)); [apply Occurs_here; now left|].
      exists d. auto. }
    apply W in Ga, Gb; auto. apply well_nested_iff in Ga, Gb. apply well_nested_iff.
    now rewrite nest_app, Ga.
  - intros evs _. simpl. apply content_trace in Ga, Gb, Gc. rewrite Ga, Gb, Gc.
    unfold tapp, outcome. simpl. now rewrite app_assoc.
Qed.
Lemma prepend_prepend e a b c x y : ContentGives a (inl x) -> ContentGives b (inl y) ->
  ContentGives c (inl (y ++ x)) -> ValidArgs [OPrepend a] -> ValidArgs [OPrepend b] ->
  Equal e [OPrepend a; OPrepend b] [OPrepend c].
Proof.
  intros Ga Gb Gc Ha Hb. eapply (equal_of _ _ _ false false).
  - econstructor; [constructor|]. apply typed_one. constructor.
  - apply typed_one. constructor.
  - now apply (valid_args_app [OPrepend a]).
  - eapply valid_args_ok; [reflexivity|exact Gc|].
    assert (forall d z, ValidArgs [OPrepend d] -> ContentGives d (inl z) -> WellNested z) as W.
    { intros d z (_ & V & _) Gd. apply (V (OPrepend d)); [apply Occurs_here; now left|].
      exists d. auto. }
    apply W in Ga, Gb; auto. apply well_nested_iff in Ga, Gb. apply well_nested_iff.
    now rewrite nest_app, Gb.
  - intros evs _. simpl. apply content_trace in Ga, Gb, Gc. rewrite Ga, Gb, Gc.
    unfold tapp, outcome. simpl. now rewrite app_assoc.
Qed.

(** ** Repetition *)

Lemma repeat_valid bs : (forall p, In p bs -> ValidArgs p) -> ValidArgs [ORepeat bs].
Proof. intros H. apply valid_args_wrap; auto. Qed.
Lemma repeat_once e p e' : typed e p e' -> ValidArgs p -> Equal e [ORepeat [p]] p.
Proof.
  intros Ht Hv. eapply (equal_of _ _ _ false e'); auto.
  - apply typed_one. constructor. constructor; eauto.
  - apply repeat_valid. intros q [<-|[]]. exact Hv.
  - intros evs _. simpl. unfold d_repeat. simpl. rewrite !d_op_pipe.
    destruct (d_pipe p (evs, None)) as [x [err|]]; [reflexivity|]. unfold tapp, outcome. simpl.
    now rewrite app_nil_r.
Qed.
Lemma repeat_never e : Equal e [ORepeat []] [ORemove].
Proof.
  eapply (equal_of _ _ _ false false).
  - apply typed_one. constructor. constructor.
  - apply typed_one. constructor.
  - apply repeat_valid. intros q [].
  - apply remove_valid.
  - reflexivity.
Qed.
(** ** Contents *)

Lemma contents_fuse f g x : Keeps f false false -> Keeps g false false -> Good true x -> snd x = None ->
  outcome (d_contents g (d_contents f x)) = outcome (d_contents (fun y => g (f y)) x).
Proof.
  intros Hf Hg Hx Ex. destruct x as [evs t]. simpl in Ex. subst t. unfold Good in Hx. simpl in Hx.
  assert (forall t a kids c, nest [] kids = Some [] ->
    outcome (d_contents g (tapp ([OpeningTag t a], None) (tapp (f (kids, None)) ([ClosingTag c], None)))) =
    outcome (tapp ([OpeningTag t a], None) (tapp (g (f (kids, None))) ([ClosingTag c], None)))) as H.
  { intros t a kids c Hk. destruct (Hf (kids, None) Hk) as [Hk' _].
    destruct (f (kids, None)) as [y [err|]] eqn:E.
    - unfold tapp. simpl. destruct (Hg _ Hk') as [_ Hs].
      destruct (g (y, Some err)) as [z [e2|]]; [reflexivity|]. now destruct Hs.
    - unfold tapp. simpl. now rewrite removelast_last, last_last. }
  destruct evs as [|[] rest]; try contradiction; try reflexivity.
  - destruct Hx as (_ & kids & c & -> & _ & Hk). unfold d_contents at 2 3. simpl.
    rewrite !removelast_last, !last_last. exact (H tag attrs kids c Hk).
  - exact (H tag attrs [] tag eq_refl).
Qed.
Lemma typed_false_op : forall o e, typed_op false o e -> e = false.
Proof.
  apply (op_sub_ind (fun o => forall e, typed_op false o e -> e = false)). intros o IH e Ht.
  assert (forall p e', Sub o p -> typed false p e' -> e' = false) as Hp.
  { intros p e' Hs. specialize (IH p Hs). clear Hs. revert e'.
    induction p as [|o' p IHp]; intros e' Hp; inversion Hp; subst; auto.
    rewrite (IH o' ltac:(now left) _ H2) in H4. apply IHp; auto. intros o2 Ho2. apply IH. now right. }
  inversion Ht; subst; auto.
  - eapply Hp; eauto. reflexivity.
  - rewrite (Hp p e'); auto. reflexivity.
Qed.
Lemma typed_false p e : typed false p e -> e = false.
Proof.
  revert e. induction p as [|o p IH]; intros e H; inversion H; subst; auto.
  apply typed_false_op in H3. subst. auto.
Qed.
Lemma sub_contents_valid p : ValidArgs p -> ValidArgs [OSubselectContents p].
Proof. intros H. apply valid_args_wrap; auto. intros q ->. exact H. Qed.
Lemma typed_sub_contents p e : typed false p e -> typed true [OSubselectContents p] true.
Proof. intros H. apply typed_one. econstructor; eauto. Qed.
Lemma contents_then p q e e' : typed false p e -> typed false q e' -> ValidArgs p -> ValidArgs q ->
  Equal true [OSubselectContents p; OSubselectContents q] [OSubselectContents (p ++ q)].
Proof.
  intros Tp Tq Vp Vq. pose proof (typed_false _ _ Tp). pose proof (typed_false _ _ Tq). subst.
  eapply (equal_of _ _ _ true true).
  - econstructor; [econstructor; eauto|]. eapply typed_sub_contents; eauto.
  - eapply typed_sub_contents, typed_app; eauto.
  - apply (valid_args_app [_]); now apply sub_contents_valid.
  - apply sub_contents_valid. now apply valid_args_app.
  - intros evs Hg.
    change (outcome (d_contents (d_pipe q) (d_contents (d_pipe p) (evs, None))) =
            outcome (d_contents (d_pipe (p ++ q)) (evs, None))).
    rewrite (contents_fuse (d_pipe p) (d_pipe q)); auto; try (apply keeps_pipe; auto using valid_args_well).
    unfold Good in Hg. simpl in Hg.
    destruct evs as [|[] rest]; try contradiction; try reflexivity; unfold d_contents; now rewrite d_pipe_app.
Qed.
Lemma contents_call o o' e : ContentsOf o o' -> typed true [o] e -> ValidArgs [o] ->
  Equal true [o] [OSubselectContents [o']].
Proof.
  intros Hc Ht Hv. destruct (contents_of_typed _ _ _ Hc Ht) as [e' Ht'].
  eapply (equal_of _ _ _ e true); auto.
  - eapply typed_sub_contents; eauto.
  - apply sub_contents_valid. now apply (contents_of_valid _ _ Hc).
  - intros evs _. simpl. now rewrite (contents_of_trace _ _ Hc).
Qed.

(** ** Attributes and contents *)

Lemma attribute_typed o : attribute_op o -> typed_op true o true.
Proof. intros H. destruct o; try contradiction; constructor. Qed.
Lemma contents_typed_op o o' e : ContentsOf o o' -> typed true [o] e -> typed_op true o true.
Proof.
  intros Hc Ht. inversion Ht; subst. destruct Hc; inversion H2; subst; econstructor; eauto.
Qed.
Lemma attr_contents_trace c g x : Good true x -> snd x = None ->
  outcome (d_contents g (d_attr c x)) = outcome (d_attr c (d_contents g x)).
Proof.
  intros Hx Ex. destruct x as [evs t]. simpl in Ex. subst t. unfold Good in Hx. simpl in Hx.
  destruct evs as [|[] rest]; try contradiction; try reflexivity.
Qed.
Lemma attribute_contents o k k' e : attribute_op o -> ContentsOf k k' -> typed true [k] e ->
  ValidArgs [o] -> ValidArgs [k] -> Equal true [o; k] [k; o].
Proof.
  intros Ho Hk Ht Vo Vk. pose proof (attribute_typed o Ho) as To.
  pose proof (contents_typed_op k k' e Hk Ht) as Tk.
  eapply (equal_of _ _ _ true true).
  - econstructor; [exact To|]. now apply typed_one.
  - econstructor; [exact Tk|]. now apply typed_one.
  - now apply (valid_args_app [o]).
  - now apply (valid_args_app [k]).
  - intros evs Hg. simpl. rewrite !(contents_of_trace _ _ Hk).
    destruct (attribute_command o Ho) as [[c Hc]|[i Hi]].
    + rewrite !(command_trace o c) by auto. now apply attr_contents_trace.
    + assert (forall x, d_op o x = ([], Some (SEIdentifier i))) as E.
      { intros x. destruct o; simpl in *; try contradiction; try discriminate; injection Hi as ->; reflexivity. }
      rewrite !E. reflexivity.
Qed.
