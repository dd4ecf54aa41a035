(** Static arguments are safe; what can go wrong with other arguments. *)
From Coq Require Import String ZArith NArith.
From stdpp Require Import gmap.
From Verif Require Import Text Event Input Parse Selector Machine Template.
From Verif Require Import SpecText SpecAttr SpecParse SpecRender SpecTree SpecTransform SpecOps SpecSafe.
From Verif Require Import TextProofs SelectProofs ParseProofs3 ParseProofs4 ParseProofs8 ParseProofs9 Trace PipelineProofs TreeProofs ReachProofs ErrorProofs SelectionProofs
  OpProofs ApiProofs SafeProofs SafeProofs2.
Local Open Scope nat_scope.

Lemma number_markup_free z : MarkupFree (decimal_z z).
Proof.
  repeat split; intros H; apply decimal_z_chars in H; unfold IsDigit in H; lia.
Qed.
Lemma static_plain c : StaticContent c -> forall evs, ContentGives c (inl evs) -> PlainText evs.
Proof.
  induction 1 as [s|z|c _ IH|e]; intros evs H; inversion H; subst; auto.
  - constructor; [|constructor]. eexists. split; [reflexivity|]. apply static_markup_free.
  - constructor; [|constructor]. eexists. split; [reflexivity|]. apply number_markup_free.
Qed.
Lemma static_breaks c evs : StaticContent c -> ContentBreaks c evs -> evs = [].
Proof. induction 1; intros Hb; inversion Hb; subst; auto. Qed.
Lemma static_value_free v : StaticValue v -> ~ In 34%N (enc_str v).
Proof. intros []; [apply static_markup_free|apply number_markup_free]. Qed.
Lemma static_safe b i o : StaticCall o -> SafeCall b i o.
Proof.
  intros [H1 H2 H3 H4 H5 H6]. constructor; auto.
  - intros c evs Hc Hg. pose proof (static_plain c (H1 c Hc) evs Hg) as Hp.
    destruct (Into b i o); [exact Hp|now apply plain_readable].
  - intros v Hv. apply static_value_free. auto.
  - destruct o; simpl in *; auto; rewrite H5; now rewrite andb_false_r.
  - intros f x y Hf. congruence.
Qed.
Lemma occurs_in_occurs b i p k o : OccursIn b i p k o -> Occurs p o.
Proof.
  induction 1 as [i p o H|i p o j q k o' H Hs _ IH]; [now apply Occurs_here|].
  eapply Occurs_deeper; eauto. destruct o; simpl in *; intuition.
Qed.
Lemma static_valid_args p : NamesValid p -> (forall o, Occurs p o -> StaticCall o) -> ValidArgs p.
Proof.
  intros Hn Hs. split; auto. split; [|split].
  - intros o evs Ho (c & Hc & Hg). apply (readable_well_nested true). apply plain_readable.
    eapply static_plain; eauto. now apply (static_content _ (Hs o Ho)).
  - intros o f x y Ho Hf. rewrite (static_function _ (Hs o Ho)) in Hf. discriminate.
  - intros o evs Ho (c & Hc & Hg). exists []. rewrite app_nil_r.
    rewrite (static_breaks c evs (static_content _ (Hs o Ho) c Hc) Hg).
    exists []. split; [apply proper_nil|reflexivity].
Qed.

Lemma safe_parses b evs p e r : Readable b evs -> typed false p e -> ValidArgs p -> SafeCalls b p ->
  Gives evs p (inl r) ->
  exists r', from_str (display_events r) (Options None None) = TOk r' /\ SameStructure r r'.
Proof. intros. eapply readable_parses, safe_pipeline; eauto. Qed.
Lemma static_parses s opts evs p e r : from_str s opts = TOk evs -> Forall NoBang evs -> typed false p e ->
  NamesValid p -> (forall o, Occurs p o -> StaticCall o) -> Gives evs p (inl r) ->
  exists r', from_str (display_events r) (Options None None) = TOk r' /\ SameStructure r r'.
Proof.
  intros Hp Hb Ht Hn Hs Hg. eapply (safe_parses true); eauto.
  - eapply parsed_readable; eauto.
  - now apply static_valid_args.
  - intros i o Ho. apply static_safe, Hs. eapply occurs_in_occurs; eauto.
Qed.
Lemma element_readable tag evs : Writable (id_str tag) -> no_bang (id_str tag) -> with_element (inl tag) = inl evs ->
  Readable true evs.
Proof.
  intros Hw Hb E. injection E as <-. destruct (is_void_tag (id_str tag)) eqn:Hv.
  - apply (readable_tree true (Leaf (VoidTag tag []))). constructor; [now split|intros ? []|].
    apply is_void_spec; [apply Hw|exact Hv].
  - apply (readable_tree true (Leaf (SelfClosedTag tag []))). constructor; [now split|intros ? []| |discriminate].
    apply is_void_false; [apply Hw|exact Hv].
Qed.
Lemma built_parses tag p e n h r : Writable (id_str tag) -> no_bang (id_str tag) -> typed true p e -> ValidArgs p ->
  (forall i o, OccursIn true false p i o -> SafeCall true i o) ->
  with_transformed_element n (inl tag) p = Done h (inl r) ->
  exists r', from_str (display_events r) (Options None None) = TOk r' /\ SameStructure r r'.
Proof.
  intros Hw Hb Ht Hv Hs E. unfold with_transformed_element in E.
  destruct (with_element (inl tag)) as [evs|] eqn:Ee; [|discriminate].
  apply (safe_parses true evs [OSelectOnce false (inl (SelTag tag)) p] false); auto.
  - eapply element_readable; eauto.
  - apply typed_one. econstructor; eauto.
  - now apply valid_args_select_once.
  - intros i o Ho. inversion Ho; subst.
    + destruct H as [<-|[]]. constructor; simpl; try discriminate; try contradiction; auto.
      intros m [= <-]. apply library_selector. discriminate.
    + destruct H as [<-|[]]. destruct H0 as [-> ->]. auto.
  - exists n, h. exact E.
Qed.

(** ** What is not read back *)

Lemma repeat_raw_refuted : exists s evs p r l,
  from_str s default_options = TOk evs /\ typed false p false /\
  (forall o, Occurs p o -> op_content o = None /\ op_name o = None /\ op_function o = None) /\
  Gives evs p (inl r) /\
  from_str (display_events r) default_options = TErr (ParseError (ExpectedClosingTagClose (lit "scr") l)).
Proof.
  exists (lit "<script>ipt></scr</script>").
  eexists. exists [OSelect false (inl (SelTag (Ident (StaticStr (lit "script"))))) (fun _ => [ORepeatContents [[]; []]])].
  eexists. eexists. split; [vm_compute; reflexivity|]. split; [|split; [|split]].
  - apply typed_one, T_select. intros _. eexists. apply typed_one. apply T_repeat_contents.
    repeat constructor; eexists; apply T_nil.
  - intros o H. inversion H as [? ? Hi|o1 ? q ? Hi Hs Ho]; subst.
    { destruct Hi as [<-|[]]. auto. }
    destruct Hi as [<-|[]]. destruct Hs as [_ ->].
    inversion Ho as [? ? Hi|o1 ? q ? Hi Hs Ho']; subst.
    { destruct Hi as [<-|[]]. auto. }
    destruct Hi as [<-|[]]. destruct Hs as [<-|[<-|[]]]; inversion Ho'; subst; simpl in *; contradiction.
  - exists 200. eexists. vm_compute. reflexivity.
  - vm_compute. reflexivity.
Qed.
Lemma attribute_name_refuted : exists s evs p r l,
  from_str s default_options = TOk evs /\ typed false p false /\ ObtainableArgs p /\
  Gives evs p (inl r) /\
  from_str (display_events r) default_options = TErr (ParseError (ExpectedOpeningTagClose (lit "p") l)).
Proof.
  exists (lit "<p>x</p>").
  eexists. exists [OSelect false (inl (SelTag (Ident (StaticStr (lit "p")))))
    (fun _ => [OAddAttribute (inl (Ident (StaticStr (lit "a'b")))) None])].
  eexists. eexists. split; [vm_compute; reflexivity|]. split; [|split; [|split]].
  - apply typed_one, T_select. intros _. eexists. apply typed_one. constructor.
  - assert (forall o, Occurs [OSelect false (inl (SelTag (Ident (StaticStr (lit "p")))))
       (fun _ => [OAddAttribute (inl (Ident (StaticStr (lit "a'b")))) None])] o ->
       op_content o = None /\ op_function o = None /\
       forall i, op_name o = Some (inl i) -> ValidName (id_str i)) as Hall.
    { intros o H. inversion H as [? ? Hi|o1 ? q ? Hi Hs Ho]; subst.
      { destruct Hi as [<-|[]]. repeat split; discriminate. }
      destruct Hi as [<-|[]]. destruct Hs as [_ ->].
      inversion Ho as [? ? Hi|o1 ? q ? Hi Hs Ho']; subst.
      - destruct Hi as [<-|[]]. split; [reflexivity|split; [reflexivity|]]. intros ? [= <-]. apply validate_iff. vm_compute. eauto.
      - destruct Hi as [<-|[]]. destruct Hs. }
    split; [|split; [|split]].
    + intros o i Ho Hi. now apply (Hall o Ho).
    + intros o x Ho (c & Hc & _). destruct (Hall o Ho) as (E & _). congruence.
    + intros o f x y Ho Hf. destruct (Hall o Ho) as (_ & E & _). congruence.
    + intros o x Ho (c & Hc & _). destruct (Hall o Ho) as (E & _). congruence.
  - exists 200. eexists. vm_compute. reflexivity.
  - vm_compute. reflexivity.
Qed.
Lemma element_name_refuted : exists tag evs l,
  ident_from_static_str (lit "p'q") = inl tag /\ with_element (inl tag) = inl evs /\
  from_str (display_events evs) default_options = TErr (ParseError (ExpectedOpeningTagClose (lit "p") l)).
Proof. do 3 eexists. repeat split; vm_compute; reflexivity. Qed.
Lemma element_comment_refuted : exists tag evs l,
  ident_from_static_str (lit "!--") = inl tag /\ with_element (inl tag) = inl evs /\
  from_str (display_events evs) default_options = TErr (ParseError (UnclosedComment l)).
Proof. do 3 eexists. repeat split; vm_compute; reflexivity. Qed.

(** ** An example with repetition *)

Definition es_item : pipeline :=
  [OAppendContents (CTemplate [VoidTag (Ident (StaticStr (lit "br"))) []; Data (Encoded (StaticStr (lit "&")))])].
Definition es_list : pipeline :=
  [OSelect false (inl (SelTag (Ident (StaticStr (lit "li"))))) (fun _ => [ORepeat [es_item; []; es_item]])].
Lemma plain_name s : (exists t, validate (lit s) = inl t) ->
  forallb (fun c => negb (existsb (N.eqb c) [32; 9; 13; 10; 62; 60; 34; 47; 61; 39; 38; 33]%N)) (lit s) = true ->
  Writable (lit s) /\ no_bang (lit s).
Proof.
  intros Hv Hf. rewrite forallb_forall in Hf.
  assert (forall c d, In c (lit s) -> In d [32; 9; 13; 10; 62; 60; 34; 47; 61; 39; 38; 33]%N -> c = d -> False) as H.
  { intros c d Hc Hd ->. specialize (Hf _ Hc). apply negb_true_iff in Hf.
    assert (existsb (N.eqb d) [32; 9; 13; 10; 62; 60; 34; 47; 61; 39; 38; 33]%N = true) as Ht.
    { apply existsb_exists. exists d. split; auto. apply N.eqb_refl. }
    congruence. }
  split; [split|].
  - now apply validate_iff.
  - intros c Hc Hd. apply (H c c Hc); auto. unfold Delimiter in Hd. clear - Hd. simpl in *. tauto.
  - intros Hb. unfold Begins in Hb. destruct (lit s) as [|c r]; [now destruct Hb as (? & ? & ? & ?)|].
    destruct Hb as (c' & r' & [= <- <-] & <-). apply (H 33%N 33%N); simpl; auto 20.
Qed.
Lemma plain_element s kids : (exists t, validate (lit s) = inl t) ->
  forallb (fun c => negb (existsb (N.eqb c) [32; 9; 13; 10; 62; 60; 34; 47; 61; 39; 38; 33]%N)) (lit s) = true ->
  is_void_tag (lit s) = false -> existsb (eq_ignore_ascii_case (lit s)) RawNames = false ->
  (forall x, In x kids -> ReadableTree false x) ->
  ReadableTree false (Elem (Ident (Actual (lit s))) [] kids (Ident (Actual (lit s)))).
Proof.
  intros Hs1 Hs2 Hs3 Hs4 Hk. destruct (plain_name s Hs1 Hs2) as [Hw Hb]. apply Rd_elem; auto.
  - now split.
  - intros ? [].
  - apply is_void_false; [apply Hw|exact Hs3].
  - intros (r & Hr & Hs). apply eq_ignore_spec in Hs.
    assert (existsb (eq_ignore_ascii_case (lit s)) RawNames = true) by (apply existsb_exists; eauto). congruence.
  - apply same_name_refl.
Qed.
Lemma outside_raw i p k o : OccursIn false i p k o -> i = false -> k = false.
Proof.
  induction 1 as [|i p o j q k o' _ Hs _ IH]; auto. intros ->. apply IH.
  destruct o; simpl in Hs; intuition.
Qed.
Lemma repeat_safe_example : exists evs r,
  from_str (lit "<ul><li>x</li></ul>") default_options = TOk evs /\ Readable false evs /\
  typed false es_list false /\ ValidArgs es_list /\ SafeCalls false es_list /\ Gives evs es_list (inl r) /\
  display_events r = lit "<ul><li>x<br>&</li><li>x</li><li>x<br>&</li></ul>".
Proof.
  assert (Readable false [VoidTag (Ident (StaticStr (lit "br"))) []; Data (Encoded (StaticStr (lit "&")))]) as Hbr.
  { apply (readable_app false [_] [_]).
    - apply (readable_tree false (Leaf (VoidTag _ _))). constructor.
      + apply plain_name; [vm_compute; eauto|vm_compute; reflexivity].
      + intros ? [].
      + apply is_void_spec; [|vm_compute; reflexivity]. apply validate_iff. vm_compute. eauto.
    - apply (readable_tree false (Leaf (Data _))). constructor. vm_compute. intuition discriminate. }
  assert (forall o, Occurs es_list o -> In o (es_list ++ [ORepeat [es_item; []; es_item]] ++ es_item)) as Hoc.
  { intros o H. inversion H as [? ? Hi|o1 ? q ? Hi Hs Ho]; subst; [apply in_or_app; auto|].
    destruct Hi as [<-|[]]. destruct Hs as [_ ->].
    inversion Ho as [? ? Hi|o1 ? q ? Hi Hs Ho']; subst; [apply in_or_app; right; apply in_or_app; left; exact Hi|].
    destruct Hi as [<-|[]]. apply in_or_app; right; apply in_or_app; right. destruct Hs as [<-|[<-|[<-|[]]]];
      inversion Ho' as [? ? Hj|o2 ? q2 ? Hj Hs2 Ho'']; subst; simpl in *; try contradiction;
      destruct Hj as [<-|[]]; simpl in *; auto; contradiction. }
  eexists. eexists. split; [vm_compute; reflexivity|]. split; [|split; [|split; [|split; [|split]]]].
  - apply (readable_tree false (Elem (Ident (Actual (lit "ul"))) []
      [Elem (Ident (Actual (lit "li"))) [] [Leaf (Data (Encoded (Actual (lit "x"))))] (Ident (Actual (lit "li")))]
      (Ident (Actual (lit "ul"))))).
    apply plain_element; try (vm_compute; reflexivity); [vm_compute; eauto|].
    intros ? [<-|[]]. apply plain_element; try (vm_compute; reflexivity); [vm_compute; eauto|].
    intros ? [<-|[]]. constructor. vm_compute. intuition discriminate.
  - apply typed_one, T_select. intros _. eexists. apply typed_one, T_repeat.
    repeat constructor; eexists; repeat (eapply T_cons; [constructor|]); apply T_nil.
  - split; [|split; [|split]].
    + intros o i Ho. apply Hoc in Ho. destruct Ho as [<-|[<-|[<-|[]]]]; discriminate.
    + intros o evs Ho (c & Hc & Hg). apply Hoc in Ho. destruct Ho as [<-|[<-|[<-|[]]]]; try discriminate.
      injection Hc as <-. inversion Hg; subst. eapply readable_well_nested; eauto.
    + intros o f x y Ho. apply Hoc in Ho. destruct Ho as [<-|[<-|[<-|[]]]]; discriminate.
    + intros o evs Ho (c & Hc & Hg). apply Hoc in Ho. destruct Ho as [<-|[<-|[<-|[]]]]; try discriminate.
      injection Hc as <-. inversion Hg.
  - intros i o Ho.
    assert (i = false) as -> by (eapply outside_raw; eauto).
    apply occurs_in_occurs, Hoc in Ho.
    destruct Ho as [<-|[<-|[<-|[]]]]; constructor; simpl; try discriminate; try contradiction; auto.
    + intros m [= <-]. apply library_selector. discriminate.
    + intros c evs [= <-] Hg. inversion Hg; subst. exact Hbr.
  - exists 300. eexists. vm_compute. reflexivity.
  - vm_compute. reflexivity.
Qed.

Lemma literal_static v : LiteralValue v -> StaticValue (Api.into_value v).
Proof. intros []; constructor. Qed.
Lemma attribute_calls_static name v sep o w : LiteralValue v -> LiteralValue sep ->
  In o [Api.add_attribute name (Some v); Api.add_attribute name None;
        Api.add_attribute_with_value name v; Api.add_empty_attribute name;
        Api.add_to_attribute name v sep; Api.replace_attribute_value_if_exists name v;
        Api.set_attribute name (Some v); Api.set_attribute name None;
        Api.set_attribute_with_value name v; Api.set_empty_attribute name;
        Api.remove_attribute name] ->
  WrittenValue o w -> StaticValue w.
Proof.
  intros Hv Hs Ho Hw. repeat (destruct Ho as [<-|Ho]); [..|destruct Ho];
  simpl in Hw; try discriminate; try contradiction; try (injection Hw as <-); try destruct Hw as [->| ->]; try subst w;
  auto using literal_static.
Qed.
