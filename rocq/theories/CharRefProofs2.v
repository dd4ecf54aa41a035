(** Templates as readers of HTML see them. *)
From Coq Require Import String ZArith NArith List Bool Lia.
From stdpp Require Import gmap.
From Verif Require Import Text Event Input Parse Selector Machine Template.
From Verif Require Import SpecText SpecAttr SpecParse SpecRender SpecTree SpecTransform SpecOps SpecSafe SpecLaws
  SpecHtml5 SpecHtmlSafe SpecHtmlRead SpecEntities SpecCharRef SpecOrigin.
From Verif Require Import TextProofs TextProofs2 ParseProofs9 SelectProofs Trace PipelineProofs TreeProofs ErrorProofs SelectionProofs OpProofs ApiProofs SafeProofs3 Html5Proofs Html5Proofs2 Html5Proofs3 Html5Proofs4 Html5Proofs5 Html5Proofs6
  Html5Proofs7 CharRefProofs OriginProofs.
Local Open Scope N_scope.

(** ** Literals *)

Lemma static_expand s a : expand (reference a) 0 (enc_str (enc_from_unencoded_static_str s)) = s.
Proof. apply decodes_expand. now apply static_decodes. Qed.
Lemma static_settled s : Settled (enc_str (enc_from_unencoded_static_str s)).
Proof. apply (decodes_settled _ s). now apply static_decodes. Qed.
Lemma free_settled s : ~ In 38 s -> Settled s.
Proof. intros H p q ->. destruct H. apply in_or_app. right. now left. Qed.
Lemma free_expand s f : ~ In 38 s -> expand f 0 s = s.
Proof.
  induction s as [|c s IH]; intros H; [reflexivity|]. cbn [expand].
  rewrite (eqb_false c 38) by (intros ->; apply H; now left). f_equal. apply IH. intros Hi. apply H. now right.
Qed.
Lemma number_free z : ~ In 38 (enc_str (value_from_int z)).
Proof. intros H. change (enc_str (value_from_int z)) with (decimal_z z) in H. apply decimal_z_chars in H. unfold IsDigit in H. lia. Qed.
Lemma number_settled z : Settled (enc_str (value_from_int z)).
Proof. apply free_settled, number_free. Qed.
Lemma number_expand z a : expand (reference a) 0 (enc_str (value_from_int z)) = decimal_z z.
Proof. apply free_expand, number_free. Qed.

(** ** Pipelines *)

Lemma settled_kept evs p e r : WellNested evs -> SettledTexts evs -> typed false p e -> ValidArgs p ->
  ElementSelectors p -> (forall c, Brought p (Data c) \/ Brought p (RawData c) -> Settled (enc_str c)) ->
  Gives evs p (inl r) -> SettledTexts r.
Proof.
  intros Hw Hs Ht Hv He Hb Hg c [Hc|Hc]; pose proof (text_comes_from evs p e r Hw Ht Hv He Hg _ Hc) as [H|H];
    first [apply Hs; auto; fail|apply Hb; auto].
Qed.
Lemma html_well_nested b sc evs : HtmlTemplate b sc evs -> WellNested evs.
Proof. intros (F & HF & ->). exists F. split; auto. intros x Hx. apply (html_proper b sc). auto. Qed.
Lemma settled_result b sc evs p e r : HtmlTemplate b sc evs -> SettledTexts evs -> typed false p e ->
  ValidArgs p -> HtmlCalls b sc p ->
  (forall c, Brought p (Data c) \/ Brought p (RawData c) -> Settled (enc_str c)) ->
  Gives evs p (inl r) -> SettledTexts r /\ read b (display_events r) = shown_each reference b false r.
Proof.
  intros H1 H2 H3 H4 H5 H6 H7.
  assert (SettledTexts r) as H.
  { apply (settled_kept evs p e r); auto; [now apply (html_well_nested b sc)|].
    intros o m Ho Em.
    assert (exists i, OccursIn sc false p i o) as (i & Hi).
    { clear -Ho. generalize false. induction Ho as [o p Ho|o p q o' Ho Hs _ IH]; intros i.
      - exists i. now constructor.
      - assert (exists j, SubIn sc i o j q) as (j & Hj).
        { destruct o; cbn in *; eauto; destruct Hs as [?|?]; eauto. }
        destruct (IH j) as (k & Hk). exists k. eapply OccursIn_deeper; eauto. }
    now apply (html_selector _ _ _ _ (H5 i o Hi)). }
  split; auto. rewrite standard_shown; [now apply shown_settled0|]. apply (html_standard b sc).
  eapply html_pipeline; eauto.
Qed.
Lemma clean_brought c x : CleanContent c -> ContentGives c (inl x) -> forall d, In (Data d) x \/ In (RawData d) x -> Settled (enc_str d).
Proof.
  intros H. revert x. induction H as [s Hs|z|c _ IH|e]; intros x Hg d Hd; inversion Hg; subst; eauto.
  - destruct Hd as [[[= <-]|[]]|[[=]|[]]]. apply static_settled.
  - destruct Hd as [[[= <-]|[]]|[[=]|[]]]. apply number_settled.
Qed.
Lemma literals_settled p : (forall o, Occurs p o -> CleanCall o) ->
  forall c, Brought p (Data c) \/ Brought p (RawData c) -> Settled (enc_str c).
Proof.
  intros H c [(o & Ho & B)|(o & Ho & B)]; destruct B as [(x & (d & Ed & Hg) & Hin)|(f & x & y & Ef & _)];
    try (rewrite (clean_function _ (H o Ho)) in Ef; discriminate);
    eapply (clean_brought d x); eauto; now apply (clean_content _ (H o Ho)).
Qed.
Lemma literals_result b sc evs p e r : HtmlTemplate b sc evs -> SettledTexts evs -> typed false p e ->
  NamesValid p -> (forall o, Occurs p o -> CleanCall o) -> Gives evs p (inl r) ->
  SettledTexts r /\ read b (display_events r) = shown_each reference b false r.
Proof.
  intros H1 H2 H3 H4 H5 H6. apply (settled_result b sc evs p e r); auto.
  - now apply clean_valid_args.
  - intros i o Ho. apply clean_html, H5. eapply occurs_in_occurs; eauto.
  - now apply literals_settled.
Qed.

(** ** Parsed texts *)

Lemma standard_nl_shown b evs : UndividedNewlines evs -> Standard b (map nl_event evs) ->
  read b (display_events evs) = shown reference b false [] (map nl_event evs).
Proof.
  intros H1 H2. unfold read. rewrite (standard_nl_display b evs H1 H2).
  exact (read_standard b reference reference_local _ H2 [] (fun x => x)).
Qed.
Lemma parsed_shown b s o evs slices : from_str s o = TOk evs ->
  s = concat slices -> Forall2 SliceOf slices evs -> Forall2 Tidy slices evs ->
  Standard b (map nl_event evs) ->
  map unflag (read b s) = map unflag (shown reference b false [] (map nl_event evs)) /\
  map unflag (read b (display_events evs)) = map unflag (read b s).
Proof.
  intros H E Hs Ht Hstd. pose proof (parsed_read b reference s o evs slices reference_local H E Hs Ht Hstd) as R.
  split; [exact R|]. rewrite standard_nl_shown; [symmetry; exact R| |exact Hstd].
  eapply parsed_undivided; eauto.
Qed.

(** ** An element made from literals *)

Lemma literal_element b t n v s : OrdinaryName b (id_str t) -> Writable (id_str n) -> Clean (id_str n) ->
  Clean v -> Clean s ->
  read b (display_events [OpeningTag t [Attribute n (Some (enc_from_unencoded_static_str v))];
                          Data (enc_from_unencoded_static_str s); ClosingTag t]) =
  [TStart (lower (id_str t)) [(lower (id_str n), v)] false] ++ chars s ++ [TEnd (lower (id_str t))].
Proof.
  intros Ho Hw Hn Hv Hs.
  assert (Clean (enc_str (enc_from_unencoded_static_str v)) /\ Clean (enc_str (enc_from_unencoded_static_str s))) as [Cv Cs]
    by (rewrite !static_str; split; now apply escape_clean).
  rewrite standard_shown.
  - cbn [shown raw_after]. rewrite (ordinary_raw b _ Ho). unfold shown_text. cbn [expand event_tokens map app].
    change (chars []) with (@nil token). cbn [app]. rewrite static_expand. cbn [html_attributes existsb a_name a_value expand_token map fst snd].
    rewrite static_expand. reflexivity.
  - eapply Std_tag; eauto.
    + constructor; [|constructor]. split; [exact Hw|]. split; [exact Hn|]. split; [apply static_markup_free|exact Cv].
    + eapply Std_text; eauto; [apply static_markup_free|]. apply Std_end; [apply Ho|constructor].
Qed.

(** ** Examples *)

Definition adds (n s : string) : pipeline :=
  [OSelect false (inl (SelTag (Ident (StaticStr (lit n))))) (fun _ => [OAppendContents (CStatic (lit s))])].
Lemma adds_clean n s : Clean (lit s) -> typed false (adds n s) false /\ NamesValid (adds n s) /\
  forall o, Occurs (adds n s) o -> CleanCall o.
Proof.
  intros Hs.
  assert (forall o, Occurs (adds n s) o -> CleanCall o /\ op_name o = None) as Hc.
  { intros o H. inversion H as [? ? Hi|o1 ? q ? Hi Hs1 Ho]; subst.
    - destruct Hi as [<-|[]]. split; [|reflexivity]. constructor; simpl; try discriminate; try contradiction; auto.
      intros ? [= <-]; apply library_selector; discriminate.
    - destruct Hi as [<-|[]]. destruct Hs1 as [k ->]. inversion Ho as [? ? Hj|o2 ? q2 ? Hj Hs2 Ho2]; subst.
      + destruct Hj as [<-|[]]. split; [|reflexivity]. constructor; simpl; try discriminate; try contradiction; auto.
        intros ? [= <-]. now constructor.
      + destruct Hj as [<-|[]]. destruct Hs2. }
  split; [|split].
  - apply typed_one, T_select. intros _. eexists. apply typed_one. constructor.
  - intros o i Ho Hi. destruct (Hc o Ho). congruence.
  - intros o Ho. now apply Hc.
Qed.
Definition small_tree (n s : string) : list tree := [eh_el n [] [Leaf (Data (Encoded (Actual (lit s))))]].
Lemma small_html b n s : HtmlName (lit n) -> existsb (eq_ignore_ascii_case (lit n)) (TextNames true) = false ->
  eq_ignore_ascii_case (lit n) (lit "plaintext") = false -> Clean (lit s) -> ~ In 60 (lit s) ->
  HtmlTemplate b true (events (small_tree n s)).
Proof.
  intros H1 H2 H3 H4 H5. exists (small_tree n s). split; [|reflexivity]. intros x [<-|[]].
  apply Ht_elem; auto using same_name_refl.
  - now apply ordinary_lit.
  - intros x [<-|[]]. now apply Ht_data.
Qed.

Lemma literal_example : exists r,
  let evs := events (small_tree "p" "1 &lt; ") in
  let p := adds "p" "&lt;<b>&copy" in
  (forall b, HtmlTemplate b true evs) /\ SettledTexts evs /\
  typed false p false /\ NamesValid p /\ (forall o, Occurs p o -> CleanCall o) /\
  Gives evs p (inl r) /\
  display_events r = lit "<p>1 &lt; &amp;lt;&lt;b&gt;&amp;copy</p>" /\
  forall b, read b (display_events r) =
    [TStart (lit "p") [] false] ++ chars (lit "1 < &lt;<b>&copy") ++ [TEnd (lit "p")].
Proof.
  destruct (adds_clean "p" "&lt;<b>&copy") as (T & N & C); [apply clean_dec; reflexivity|].
  eexists. cbv zeta. split; [|split; [|split; [|split; [|split; [|split; [|split]]]]]]; [| |exact T|exact N|exact C| | |].
  - intros b. apply small_html; [html_name|vm_compute; reflexivity|vm_compute; reflexivity|apply clean_dec; reflexivity|].
    vm_compute. intuition discriminate.
  - intros c [[H|[H|[H|[]]]]|[H|[H|[H|[]]]]]; try discriminate. injection H as <-. apply (decodes_settled _ (lit "1 < ")).
    do 2 (apply D_char; [discriminate|]). apply (D_entity _ _ _ _ E_lt). apply D_char; [discriminate|]. constructor.
  - exists 300%nat. eexists. vm_compute. reflexivity.
  - vm_compute. reflexivity.
  - intros []; vm_compute; reflexivity.
Qed.

(** A template whose text ends within a reference. *)
Lemma divided_refuted : exists s evs p r,
  from_str s default_options = TOk evs /\ display_events evs = s /\
  (forall b, HtmlTemplate b true evs) /\
  typed false p false /\ NamesValid p /\ (forall o, Occurs p o -> CleanCall o) /\
  Gives evs p (inl r) /\
  (forall b, read b s = [TStart (lit "b") [] false] ++ chars (lit "&") ++ [TEnd (lit "b")]) /\
  display_events r = lit "<b>&lt;</b>" /\
  (forall b, read b (display_events r) = [TStart (lit "b") [] false] ++ chars (lit "<") ++ [TEnd (lit "b")]).
Proof.
  destruct (adds_clean "b" "lt;") as (T & N & C); [apply clean_dec; reflexivity|].
  exists (lit "<b>&</b>"). eexists. exists (adds "b" "lt;"). eexists.
  split; [vm_compute; reflexivity|]. split; [vm_compute; reflexivity|].
  split; [|split; [exact T|split; [exact N|split; [exact C|split; [|split; [|split]]]]]].
  - intros b. apply (small_html b "b" "&"); [html_name|vm_compute; reflexivity|vm_compute; reflexivity|apply clean_dec; reflexivity|].
    vm_compute. intuition discriminate.
  - exists 300%nat. eexists. vm_compute. reflexivity.
  - intros []; vm_compute; reflexivity.
  - vm_compute. reflexivity.
  - intros []; vm_compute; reflexivity.
Qed.
(** References do not count in scripts. *)
Lemma script_refuted : exists s evs p r,
  from_str s default_options = TOk evs /\ display_events evs = s /\
  (forall b, HtmlTemplate b true evs) /\ SettledTexts evs /\
  p = adds "script" "1<2" /\
  typed false p false /\ NamesValid p /\ (forall o, Occurs p o -> CleanCall o) /\
  Gives evs p (inl r) /\
  (forall b, read b (display_events r) =
     [TStart (lit "script") [] false] ++ chars (lit "x=1&lt;2") ++ [TEnd (lit "script")]).
Proof.
  destruct (adds_clean "script" "1<2") as (T & N & C); [apply clean_dec; reflexivity|].
  exists (lit "<script>x=</script>"). eexists. eexists. eexists.
  split; [vm_compute; reflexivity|]. split; [vm_compute; reflexivity|].
  split; [|split; [|split; [reflexivity|split; [exact T|split; [exact N|split; [exact C|split]]]]]].
  - intros b. exists [eh_el "script" [] [Leaf (RawData (Encoded (Actual (lit "x="))))]]. split; [|reflexivity].
    intros x [<-|[]]. apply Ht_text; auto.
    + html_name.
    + exists (lit "script"). split; [apply in_or_app; left; now left|apply same_name_refl].
    + apply same_name_refl.
    + html_name.
    + repeat constructor.
    + apply calm_settled; [apply clean_dec|]; vm_compute; reflexivity.
  - intros c [[H|[H|[H|[]]]]|[H|[H|[H|[]]]]]; try discriminate. injection H as <-. apply free_settled.
    vm_compute. intuition discriminate.
  - exists 300%nat. eexists. vm_compute. reflexivity.
  - intros []; vm_compute; reflexivity.
Qed.
