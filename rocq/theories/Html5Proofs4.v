(** What readers of HTML understand differently, and examples. *)
From Coq Require Import String ZArith NArith.
From stdpp Require Import gmap.
From Verif Require Import Text Event Input Parse Selector Machine Template.
From Verif Require Import SpecText SpecAttr SpecParse SpecRender SpecTree SpecTransform SpecOps SpecSafe
  SpecHtml5 SpecHtmlSafe.
From Verif Require Import TextProofs SelectProofs ParseProofs9 Trace PipelineProofs TreeProofs ErrorProofs SelectionProofs
  OpProofs SafeProofs SafeProofs2 SafeProofs3 Html5Proofs Html5Proofs2 Html5Proofs3.
Local Open Scope N_scope.

Ltac differently :=
  eexists; split; [vm_compute; reflexivity|]; split; [vm_compute; reflexivity|];
  split; [intros []; vm_compute; reflexivity|vm_compute; discriminate].

Lemma name_differs :
  ReadDifferently (lit "<1>x</1>") (chars (lit "<1>x") ++ [TComment (lit "1")]).
Proof. differently. Qed.
Lemma self_closed_differs :
  ReadDifferently (lit "<script /><b>x</b>") (TStart (lit "script") [] true :: chars (lit "<b>x</b>")).
Proof. differently. Qed.
Lemma noembed_differs :
  ReadDifferently (lit "<noembed><b></b></noembed>")
    (TStart (lit "noembed") [] false :: chars (lit "<b></b>") ++ [TEnd (lit "noembed")]).
Proof. differently. Qed.
Lemma plaintext_differs :
  ReadDifferently (lit "<plaintext>x</plaintext>")
    (TStart (lit "plaintext") [] false :: chars (lit "x</plaintext>")).
Proof. differently. Qed.
Lemma comment_differs :
  ReadDifferently (lit "<!--a--!>b-->") (TComment (lit "a") :: chars (lit "b-->")).
Proof. differently. Qed.
Lemma comment_start_differs :
  ReadDifferently (lit "<!-->x-->") (TComment [] :: chars (lit "x-->")).
Proof. differently. Qed.
Lemma end_tag_differs :
  ReadDifferently (lit "<script>a</script x>b</script>")
    [TStart (lit "script") [] false; TChar 97; TEnd (lit "script"); TChar 98; TEnd (lit "script")].
Proof. differently. Qed.
Lemma escaped_differs :
  ReadDifferently (lit "<script><!--<script></script>x")
    (TStart (lit "script") [] false :: chars (lit "<!--<script></script>x")).
Proof. differently. Qed.
Lemma nul_differs :
  ReadDifferently (lit "<!--" ++ 0 :: lit "-->") [TComment [65533]].
Proof. differently. Qed.

(** ** Deciding the conditions *)

Lemma clean_dec s : forallb (fun c => negb (c =? 0) && negb (c =? 13)) s = true -> Clean s.
Proof.
  intros H. rewrite forallb_forall in H. split; intros X; specialize (H _ X); discriminate.
Qed.
Lemma html_name_lit s : (exists t, validate (lit s) = inl t) ->
  forallb (fun c => negb (existsb (N.eqb c) [32; 9; 13; 10; 62; 60; 34; 47; 61; 39; 38; 33]%N)) (lit s) = true ->
  forallb (fun c => negb (c =? 0) && negb (c =? 13)) (lit s) = true ->
  match lit s with [] => False | c :: _ => alpha c = true end -> HtmlName (lit s).
Proof.
  intros H1 H2 H3 H4. split; [now apply plain_name|]. split; [now apply clean_dec|].
  destruct (lit s) as [|c r]; [destruct H4|]. exists c, r. split; auto. now apply alpha_spec.
Qed.
Ltac html_name := apply html_name_lit; [vm_compute; eauto|vm_compute; reflexivity|vm_compute; reflexivity|vm_compute; reflexivity].
Lemma ordinary_lit b s : HtmlName (lit s) -> existsb (eq_ignore_ascii_case (lit s)) (TextNames true) = false ->
  eq_ignore_ascii_case (lit s) (lit "plaintext") = false -> OrdinaryName b (lit s).
Proof.
  intros H1 H2 H3. split; auto. split.
  - intros (r & Hr & Hs). apply eq_ignore_spec in Hs.
    assert (existsb (eq_ignore_ascii_case (lit s)) (TextNames true) = true); [|congruence].
    apply existsb_exists. exists r. split; auto. unfold TextNames in *. apply in_app_or in Hr as [Hr|Hr].
    + apply in_or_app. now left.
    + apply in_or_app. right. destruct b; [exact Hr|destruct Hr].
  - intros Hs. apply eq_ignore_spec in Hs. congruence.
Qed.
Ltac ordinary := apply ordinary_lit; [html_name|vm_compute; reflexivity|vm_compute; reflexivity].

(** ** A page *)

Definition eh_page : str :=
  lit "<!doctype html><html><head><meta charset=""utf-8""><script>if (a < b) f();</script></head><body><!-- x --><P class=""a b"" hidden>&amp;<br></P></body></html>".
Definition eh_attr (n v : string) : attribute :=
  Attribute (Ident (Actual (lit n))) (Some (Encoded (Actual (lit v)))).
Definition eh_el (n : string) (a : attributes) (kids : list tree) : tree :=
  Elem (Ident (Actual (lit n))) a kids (Ident (Actual (lit n))).
Definition eh_tree : list tree :=
  [Leaf (Doctype (Encoded (Actual (lit "html"))));
   eh_el "html" []
     [eh_el "head" []
        [Leaf (VoidTag (Ident (Actual (lit "meta"))) [eh_attr "charset" "utf-8"]);
         eh_el "script" [] [Leaf (RawData (Encoded (Actual (lit "if (a < b) f();"))))]];
      eh_el "body" []
        [Leaf (Comment (Encoded (Actual (lit " x "))));
         eh_el "P" [eh_attr "class" "a b"; Attribute (Ident (Actual (lit "hidden"))) None]
           [Leaf (Data (Encoded (Actual (lit "&amp;")))); Leaf (VoidTag (Ident (Actual (lit "br"))) [])]]]].

Fixpoint calm (s : str) : bool :=
  match s with
  | [] => true
  | 60 :: t => match t with [] => false | d :: _ => negb (d =? 47) && negb (d =? 33) && calm t end
  | _ :: t => calm t
  end.
Lemma calm_suffix p q : calm (p ++ q) = true -> calm q = true.
Proof.
  induction p as [|c p IH]; auto. intros H. apply IH. cbn [app] in H.
  destruct (N.eq_dec c 60) as [->|Hc].
  - cbn [calm] in H. destruct (p ++ q); [discriminate|]. apply andb_true_iff in H as [_ H]. exact H.
  - assert (calm (c :: p ++ q) = calm (p ++ q)) as E; [|congruence].
    cbn [calm]. destruct c as [|c]; auto. repeat (destruct c as [c|c|]; auto; try (now elim Hc)).
Qed.
Lemma calm_next t : calm (60 :: t) = true -> exists d r, t = d :: r /\ d <> 47 /\ d <> 33.
Proof.
  cbn [calm]. destruct t as [|d r]; [discriminate|]. intros H. exists d, r. split; auto.
  apply andb_true_iff in H as [H _]. apply andb_true_iff in H as [H1 H2].
  apply negb_true_iff in H1, H2. split; now apply N.eqb_neq.
Qed.
Lemma small_slash c : small c = 47 -> c = 47.
Proof. unfold small. destruct (upper c) eqn:E; auto. apply upper_spec in E. unfold char in *. lia. Qed.
Lemma calm_settled n c : Clean c -> calm c = true -> SettledText n c.
Proof.
  intros Hc H. assert (forall p q, c = p ++ q -> calm q = true) as Hq.
  { intros p q ->. now apply calm_suffix in H. }
  split; [split; [exact Hc|split]|split].
  - intros p q E (m & d & r & E' & _). specialize (Hq _ _ E). rewrite E' in Hq.
    apply calm_next in Hq as (x & y & E1 & Hx & _). injection E1 as <- _. now apply Hx.
  - intros _ p q E. specialize (Hq _ _ E).
    apply calm_next in Hq as (x & y & E1 & _ & Hx). injection E1 as <- _. now apply Hx.
  - intros (p & q & E & Hne & m & Hm). specialize (Hq _ _ E). destruct q as [|x q]; [easy|].
    apply same_name_cons_l in Hm as (a' & b' & E1 & H1 & H2). injection E1 as <- <-.
    apply small_lt in H1. subst x.
    apply calm_next in Hq as (x & y & -> & Hx & _).
    apply same_name_cons_l in H2 as (a' & b' & E1 & H1 & _). injection E1 as <- _.
    apply Hx. now apply small_slash.
  - intros _ p q E. specialize (Hq _ _ E). destruct q as [|x q]; [now left|right]. intros m Em.
    injection Em as -> Em. apply calm_next in Hq as (x & y & -> & _ & Hx). injection Em as -> _. now apply Hx.
Qed.

Lemma eh_page_events : from_str eh_page default_options = TOk (events eh_tree).
Proof. vm_compute. reflexivity. Qed.
Lemma eh_value s : forallb (fun c => negb (c =? 34)) (lit s) = true ->
  forallb (fun c => negb (c =? 0) && negb (c =? 13)) (lit s) = true -> ~ In 34 (lit s) /\ Clean (lit s).
Proof.
  intros H1 H2. split; [|now apply clean_dec]. rewrite forallb_forall in H1. intros X. specialize (H1 _ X). discriminate.
Qed.
Lemma eh_attribute n v : HtmlName (lit n) -> forallb (fun c => negb (c =? 34)) (lit v) = true ->
  forallb (fun c => negb (c =? 0) && negb (c =? 13)) (lit v) = true -> HtmlAttribute (eh_attr n v).
Proof. intros (H1 & H2 & _) H3 H4. split; [exact H1|]. split; [exact H2|]. now apply eh_value. Qed.
Lemma comment_dec c : Clean c -> match c with 62 :: _ => False | _ => True end -> ~ In 45 c -> CommentText c.
Proof.
  intros H1 H2 H3. split; auto. split; [|split; [|split]].
  - intros q ->. exact H2.
  - intros q ->. apply H3. now left.
  - intros p q ->. apply H3. apply in_or_app. right. now left.
  - intros p q ->. apply H3. apply in_or_app. right. now left.
Qed.
Lemma eh_template b : HtmlTemplate b true (events eh_tree).
Proof.
  exists eh_tree. split; [|reflexivity].
  assert (forall n a kids, OrdinaryName b (lit n) -> Forall HtmlAttribute a ->
    (forall x, In x kids -> HtmlTree b true x) -> HtmlTree b true (eh_el n a kids)) as Hel.
  { intros n a kids H1 H2 H3. apply Ht_elem; auto; [apply same_name_refl|apply H1]. }
  intros x [<-|[<-|[]]].
  { constructor. apply same_name_refl. }
  apply Hel; [ordinary|constructor|]. intros x [<-|[<-|[]]].
  - apply Hel; [ordinary|constructor|]. intros x [<-|[<-|[]]].
    + constructor; [ordinary|]. constructor; [|constructor]. apply eh_attribute; [html_name|reflexivity|reflexivity].
    + apply Ht_text; auto.
      * html_name.
      * exists (lit "script"). split; [apply in_or_app; left; now left|apply same_name_refl].
      * apply same_name_refl.
      * html_name.
      * repeat constructor.
      * apply calm_settled; [apply clean_dec|]; vm_compute; reflexivity.
  - apply Hel; [ordinary|constructor|]. intros x [<-|[<-|[]]].
    + constructor. apply comment_dec; [apply clean_dec; reflexivity|exact I|]. vm_compute. intuition discriminate.
    + apply Hel; [ordinary| |].
      * constructor; [apply eh_attribute; [html_name|reflexivity|reflexivity]|]. constructor; [|constructor].
        assert (HtmlName (lit "hidden")) as (H1 & H2 & _) by html_name. split; [exact H1|]. now split.
      * intros x [<-|[<-|[]]]; constructor; try constructor.
        -- vm_compute. intuition discriminate.
        -- vm_compute. intuition discriminate.
        -- vm_compute. intuition discriminate.
        -- html_name.
        -- apply ordinary_lit; [html_name|vm_compute; reflexivity|vm_compute; reflexivity].
Qed.
Lemma eh_tokens b : tokens b eh_page =
  [TDoctype (lit "html"); TStart (lit "html") [] false; TStart (lit "head") [] false;
   TStart (lit "meta") [(lit "charset", lit "utf-8")] false; TStart (lit "script") [] false]
  ++ chars (lit "if (a < b) f();") ++
  [TEnd (lit "script"); TEnd (lit "head"); TStart (lit "body") [] false; TComment (lit " x ");
   TStart (lit "p") [(lit "class", lit "a b"); (lit "hidden", [])] false] ++ chars (lit "&amp;") ++
  [TStart (lit "br") [] false; TEnd (lit "p"); TEnd (lit "body"); TEnd (lit "html")].
Proof.
  pose proof (html_tokens b true _ (eh_template b)) as H.
  assert (display_events (events eh_tree) = eh_page) as E by (vm_compute; reflexivity).
  rewrite E in H. rewrite H. vm_compute. reflexivity.
Qed.

(** ** A pipeline on it *)

Definition eh_inner : pipeline :=
  [OAppendContents (CStatic (lit "</script><b>"));
   OSetAttribute (inl (Ident (StaticStr (lit "src")))) (Some (enc_from_unencoded_static_str (lit """><i>")));
   OAddClass (inl (Ident (StaticStr (lit "late"))));
   ORepeatContents [[]; []]].
Definition eh_pipeline : pipeline :=
  [OSelect false (inl (SelTag (Ident (StaticStr (lit "script"))))) (fun _ => eh_inner)].
Definition eh_short : list tree :=
  [eh_el "script" [] [Leaf (RawData (Encoded (Actual (lit "a < b"))))]].
Definition eh_result : str :=
  lit "<script src=""&quot;&gt;&lt;i&gt;"" class=""late"">a < b&lt;/script&gt;&lt;b&gt;a < b&lt;/script&gt;&lt;b&gt;</script>".
Lemma eh_short_template b : HtmlTemplate b true (events eh_short).
Proof.
  exists eh_short. split; [|reflexivity]. intros x [<-|[]]. apply Ht_text; auto.
  - html_name.
  - exists (lit "script"). split; [apply in_or_app; left; now left|apply same_name_refl].
  - apply same_name_refl.
  - html_name.
  - repeat constructor.
  - apply calm_settled; [apply clean_dec|]; vm_compute; reflexivity.
Qed.
Lemma eh_occurs o : Occurs eh_pipeline o -> In o (eh_pipeline ++ eh_inner).
Proof.
  intros H. inversion H as [? ? Hi|o1 ? q ? Hi Hs Ho]; subst; [apply in_or_app; auto|].
  apply in_or_app. right. destruct Hi as [<-|[]]. destruct Hs as [k ->].
  inversion Ho as [? ? Hj|o2 ? q2 ? Hj Hs2 Ho2]; subst; [exact Hj|].
  repeat (destruct Hj as [<-|Hj]; [destruct Hs2|]); try contradiction.
  - subst q2. inversion Ho2; subst; simpl in *; contradiction.
  - destruct H0 as [<-|[]]. inversion Ho2; subst; simpl in *; contradiction.
Qed.
Lemma eh_clean o : Occurs eh_pipeline o -> CleanCall o.
Proof.
  intros H. apply eh_occurs in H.
  repeat (destruct H as [<-|H]; [constructor; simpl; try discriminate; try contradiction; auto|]); try contradiction.
  all: try (intros ? [= <-]; apply library_selector; discriminate).
  - intros ? [= <-]. constructor. apply clean_dec. reflexivity.
  - intros n [= <-]. assert (HtmlName (lit "src")) as (X & _) by html_name. exact X.
  - intros n [= <-]. apply clean_dec. reflexivity.
  - intros v [= <-]. constructor. apply clean_dec. reflexivity.
  - intros n [= <-]. apply clean_dec. reflexivity.
Qed.
Lemma eh_names : NamesValid eh_pipeline.
Proof.
  intros o i H. apply eh_occurs in H.
  repeat (destruct H as [<-|H]; [simpl; try discriminate|]); try contradiction;
  intros [= <-]; apply TextProofs.validate_iff; vm_compute; eauto.
Qed.
Lemma eh_typed : typed false eh_pipeline false.
Proof.
  apply typed_one, T_select. intros _. eexists.
  repeat (eapply T_cons; [constructor|]); [|apply T_nil].
  repeat constructor; eexists; apply T_nil.
Qed.
Lemma eh_example : exists r, typed false eh_pipeline false /\ NamesValid eh_pipeline /\
  (forall o, Occurs eh_pipeline o -> CleanCall o) /\
  Gives (events eh_short) eh_pipeline (inl r) /\ display_events r = eh_result /\
  forall b, HtmlTemplate b true (events eh_short) /\
    tokens b eh_result =
      [TStart (lit "script") [(lit "src", lit "&quot;&gt;&lt;i&gt;"); (lit "class", lit "late")] false]
      ++ chars (lit "a < b&lt;/script&gt;&lt;b&gt;a < b&lt;/script&gt;&lt;b&gt;") ++ [TEnd (lit "script")].
Proof.
  assert (exists r, Gives (events eh_short) eh_pipeline (inl r) /\ display_events r = eh_result /\
    flat_map event_tokens r = [TStart (lit "script") [(lit "src", lit "&quot;&gt;&lt;i&gt;"); (lit "class", lit "late")] false]
      ++ chars (lit "a < b&lt;/script&gt;&lt;b&gt;a < b&lt;/script&gt;&lt;b&gt;") ++ [TEnd (lit "script")]) as (r & Hr & Hd & Ht).
  { eexists. split; [|split].
    - exists 300%nat. eexists. vm_compute. reflexivity.
    - vm_compute. reflexivity.
    - vm_compute. reflexivity. }
  exists r. split; [apply eh_typed|]. split; [apply eh_names|]. split; [apply eh_clean|]. split; [exact Hr|].
  split; [exact Hd|]. intros b. split; [apply eh_short_template|]. rewrite <- Hd, <- Ht.
  apply (clean_result b true _ _ _ _ (eh_short_template b) eh_typed eh_names eh_clean Hr).
Qed.

(** ** Adding text to a script that ends with the beginning of an end tag *)

Lemma unsettled_refuted : exists s evs p r,
  from_str s default_options = TOk evs /\ display_events evs = s /\
  (forall b, tokens b s = flat_map event_tokens evs) /\
  typed false p false /\ NamesValid p /\ (forall o, Occurs p o -> CleanCall o) /\
  Gives evs p (inl r) /\
  (forall b, tokens b (display_events r) = [TStart (lit "script") [] false; TEnd (lit "script"); TChar 120]) /\
  flat_map event_tokens r =
    [TStart (lit "script") [] false] ++ chars (lit "</script ") ++ [TEnd (lit "script"); TChar 120].
Proof.
  exists (lit "<script></script</script>x"). eexists.
  exists [OSelect false (inl (SelTag (Ident (StaticStr (lit "script"))))) (fun _ => [OAppendContents (CStatic (lit " "))])].
  eexists. split; [vm_compute; reflexivity|]. split; [vm_compute; reflexivity|].
  split; [intros []; vm_compute; reflexivity|].
  assert (forall o, Occurs [OSelect false (inl (SelTag (Ident (StaticStr (lit "script")))))
     (fun _ => [OAppendContents (CStatic (lit " "))])] o -> CleanCall o /\ op_name o = None) as Hc.
  { intros o H. inversion H as [? ? Hi|o1 ? q ? Hi Hs Ho]; subst.
    - destruct Hi as [<-|[]]. split; [|reflexivity]. constructor; simpl; try discriminate; try contradiction; auto.
      intros ? [= <-]; apply library_selector; discriminate.
    - destruct Hi as [<-|[]]. destruct Hs as [k ->]. inversion Ho as [? ? Hj|o2 ? q2 ? Hj Hs2 Ho2]; subst.
      + destruct Hj as [<-|[]]. split; [|reflexivity]. constructor; simpl; try discriminate; try contradiction; auto.
        intros ? [= <-]. constructor. apply clean_dec. reflexivity.
      + destruct Hj as [<-|[]]. destruct Hs2. }
  split; [|split; [|split; [|split; [|split]]]].
  - apply typed_one, T_select. intros _. eexists. apply typed_one. constructor.
  - intros o i Ho Hi. destruct (Hc o Ho). congruence.
  - intros o Ho. now apply Hc.
  - exists 300%nat. eexists. vm_compute. reflexivity.
  - intros []; vm_compute; reflexivity.
  - vm_compute. reflexivity.
Qed.
