(** ** C73 Transformations look only at what calls and selectors name

    What a transformation does to a template is determined by the tags, by what its selectors
    decide about them and by the arguments of the calls: texts, attributes that no call names
    and no selector can see, and the names of tags themselves have no influence, except that
    they appear in the result where they are put. *)
From Coq Require Import String ZArith List Lia.
From stdpp Require Import base.
From Verif Require Import Text Event Input Parse Selector Machine.
From Verif Require Import SpecTree SpecTransform SpecLaws SpecNatural NaturalProofs NaturalProofs2 Prop_Ops.
Local Open Scope list_scope.

(** Two templates and two programs that are alike: both transformations return and their
    results are alike, or neither returns. *)
Theorem C73_like : forall k evs evs' p q,
  Coherent k -> Forall2 (LikeEvent k) evs evs' -> Like k p q ->
  (forall r, Gives evs p r -> exists r', Gives evs' q r' /\ LikeResult k r r') /\
  (forall r', Gives evs' q r' -> exists r, Gives evs p r /\ LikeResult k r r').
Proof. exact (fun k evs evs' p q Hco => like_gives k Hco evs evs' p q). Qed.
Print Assumptions C73_like.

(** Texts: exchanging texts in the template exchanges texts in the result.  [X0] tells which
    texts may stand for which. *)
Theorem C73_texts : forall (X0 : event -> event -> Prop) evs evs' p r r',
  (forall e, X0 e e) -> ElementSelectors p -> NoFunctions p ->
  Forall2 (LikeEvent (OnlyTexts X0)) evs evs' -> Gives evs p r -> Gives evs' p r' ->
  LikeResult (OnlyTexts X0) r r'.
Proof. exact only_texts. Qed.
Print Assumptions C73_texts.

(** Attributes: those that no call is about, other than [class] and [id]. *)
Theorem C73_attributes : forall hide evs evs' p r r',
  CaseBlind hide -> hide (lit "class") = false -> hide (lit "id") = false ->
  LibrarySelectors p -> NoFunctions p ->
  (forall o n, Occurs p o -> About o n -> hide n = false) ->
  Forall2 (LikeEvent (OnlyAttributes hide)) evs evs' -> Gives evs p r -> Gives evs' p r' ->
  LikeResult (OnlyAttributes hide) r r'.
Proof. exact (fun hide evs evs' p r r' Hb Hc Hi => only_attributes hide Hb Hc Hi evs evs' p r r'). Qed.
Print Assumptions C73_attributes.

(** Names of tags: renaming them in the template, in selectors and in contents renames them in
    the result. *)
Theorem C73_renamed : forall f evs p r,
  Renames f -> LibrarySelectors p -> NoFunctions p -> Gives evs p r ->
  Gives (map (rename_event f) evs) (map (rename_op f) p) (rename_result f r).
Proof. exact (fun f evs p r Hf => renamed_gives f Hf evs p r). Qed.
Print Assumptions C73_renamed.

(** ** Examples *)

(** [p] elements get a title and their number as last contents. *)
Definition en_program : pipeline :=
  [OSelect false (inl (SelTag (eo_id "p")))
     (fun i => [OSetAttribute (inl (eo_id "title")) (Some (eo_val "t")); OAppendContents (CInt (Z.of_nat i))])].
Definition en_events : list event := events [eo_p] ++ [eo_br].
Definition en_title : attributes :=
  [Attribute (eo_id "class") (Some (eo_val "a  b")); Attribute (eo_id "title") (Some (eo_val "t"))].
Definition en_result : list event :=
  [OpeningTag (eo_id "p") en_title; eo_text "1"; eo_br; eo_int 0; eo_close; eo_br].
Lemma en_gives : Gives en_events en_program (inl en_result).
Proof. exists 60%nat. eexists. vm_compute. reflexivity. Qed.
Lemma en_occurs o : Occurs en_program o ->
  o = OSelect false (inl (SelTag (eo_id "p")))
     (fun i => [OSetAttribute (inl (eo_id "title")) (Some (eo_val "t")); OAppendContents (CInt (Z.of_nat i))]) \/
  o = OSetAttribute (inl (eo_id "title")) (Some (eo_val "t")) \/ exists z, o = OAppendContents (CInt z).
Proof.
  intros Ho. inversion Ho as [? ? Hin|? ? ? ? Hin Hsub Ho2]; subst.
  - destruct Hin as [<-|[]]. now left.
  - destruct Hin as [<-|[]]. destruct Hsub as [i ->]. right.
    inversion Ho2 as [? ? Hin|? ? ? ? Hin Hsub Ho3]; subst.
    + destruct Hin as [<-|[<-|[]]]; eauto.
    + destruct Hin as [<-|[<-|[]]]; destruct Hsub.
Qed.
Lemma en_library : LibrarySelectors en_program.
Proof.
  intros o m Ho Hm f ->. destruct (en_occurs o Ho) as [->|[->|[z ->]]]; discriminate.
Qed.
Lemma en_elements : ElementSelectors en_program.
Proof.
  intros o m Ho Hm. destruct (en_occurs o Ho) as [->|[->|[z ->]]]; try discriminate.
  injection Hm as <-. intros [] H; try discriminate; exact I.
Qed.
Lemma en_functions : NoFunctions en_program.
Proof. intros o Ho. destruct (en_occurs o Ho) as [->|[->|[z ->]]]; reflexivity. Qed.

(** Any text, or a comment, in place of the text of the paragraph. *)
Definition en_instead (x : event) (e e' : event) : Prop := e = e' \/ e = eo_text "1" /\ e' = x.
Example C73_example_texts : forall x r, IsText x ->
  Gives [eo_open; x; eo_br; eo_close; eo_br] en_program r ->
  LikeResult (OnlyTexts (en_instead x)) (inl en_result) r.
Proof.
  intros x r Hx H. eapply (C73_texts (en_instead x) en_events _ en_program); [now left|..].
  - apply en_elements.
  - apply en_functions.
  - constructor; [now constructor|]. constructor; [apply LE_text; [exact I|exact Hx|now right]|].
    repeat (constructor; [now constructor|]). constructor.
  - apply en_gives.
  - exact H.
Qed.
(** Any attributes other than those named [class], [id] and [title]. *)
Definition en_hide (n : str) : bool := negb (identifier_eq n (lit "class") || identifier_eq n (lit "id") ||
                                             identifier_eq n (lit "title")).
Lemma en_blind : CaseBlind en_hide.
Proof.
  intros a b H. apply TextProofs.identifier_eq_spec in H as (Ha & Hb & Hs). unfold en_hide. f_equal.
  assert (forall n, identifier_eq a n = identifier_eq b n) as Hn.
  { intros n. apply eq_true_iff_eq. rewrite !TextProofs.identifier_eq_spec.
    split; intros (? & ? & ?); repeat split; try assumption.
    - eapply TextProofs.same_name_trans; [apply TextProofs.same_name_sym; exact Hs|assumption].
    - eapply TextProofs.same_name_trans; [exact Hs|assumption]. }
  now rewrite !Hn.
Qed.
Example C73_example_attributes : forall style r,
  Gives [OpeningTag (eo_id "p") (Attribute (eo_id "STYLE") style :: eo_attrs); eo_text "1"; eo_br; eo_close;
         VoidTag (eo_id "br") [Attribute (eo_id "style") style]] en_program r ->
  LikeResult (OnlyAttributes en_hide) (inl en_result) r.
Proof.
  intros style r H. eapply (C73_attributes en_hide en_events _ en_program); [..|exact H].
  - apply en_blind.
  - reflexivity.
  - reflexivity.
  - apply en_library.
  - apply en_functions.
  - intros o n Ho Hn. destruct (en_occurs o Ho) as [->|[->|[z ->]]]; inversion Hn; reflexivity.
  - constructor; [now apply LE_open|]. constructor; [apply LE_text; first [exact I | reflexivity]|].
    constructor; [now apply LE_void|]. constructor; [now apply LE_close|].
    constructor; [now apply LE_void|]. constructor.
  - apply en_gives.
Qed.

(** Names of tags with a prefix. *)
Definition en_prefix (n : str) : str := lit "x-" ++ n.
Lemma en_renames : Renames en_prefix.
Proof. intros a b. reflexivity. Qed.
Example C73_example_renamed :
  Gives [OpeningTag (rename_ident en_prefix (eo_id "p")) eo_attrs; eo_text "1";
         rename_event en_prefix eo_br; rename_event en_prefix eo_close; rename_event en_prefix eo_br]
    [OSelect false (inl (SelTag (rename_ident en_prefix (eo_id "p"))))
      (fun i => [OSetAttribute (inl (eo_id "title")) (Some (eo_val "t")); OAppendContents (CInt (Z.of_nat i))])]
    (inl [OpeningTag (rename_ident en_prefix (eo_id "p")) en_title; eo_text "1"; rename_event en_prefix eo_br;
          eo_int 0; rename_event en_prefix eo_close; rename_event en_prefix eo_br]).
Proof. exact (C73_renamed en_prefix _ _ _ en_renames en_library en_functions en_gives). Qed.

(** Two programs: one counts from zero, the other writes a word; the templates have different
    texts. *)
Definition en_word : pipeline :=
  [OSelect false (inl (SelTag (eo_id "P"))) (fun _ =>
     [OSetAttribute (inl (eo_id "title")) (Some (eo_val "t")); OAppendContents (CStatic (lit "w"))])].
Definition en_text : likeness := OnlyTexts (fun _ _ => True).
Definition en_comment : list event := [eo_open; Comment (Encoded (StaticStr (lit "2"))); eo_br; eo_close; eo_br].
Lemma en_coherent : Coherent en_text.
Proof. intros s s' t t' H H2. cbn in H, H2. subst. reflexivity. Qed.
Lemma en_like_events : Forall2 (LikeEvent en_text) en_events en_comment.
Proof.
  constructor; [now apply LE_open|]. constructor; [apply LE_text; exact I|].
  constructor; [now apply LE_void|]. constructor; [now apply LE_close|].
  constructor; [now apply LE_void|]. constructor.
Qed.
Lemma en_like : Like en_text en_program en_word.
Proof.
  constructor; [|constructor]. apply L_select.
  - apply LS_ok. intros e e' He.
    destruct He as [|[] [] Hx Hx' _|t t' a a' Ht _|t t' a a' Ht _|t t' a a' Ht _|t t' Ht];
      try (destruct Hx; fail); try (destruct Hx'; fail); cbn in *; subst; reflexivity.
  - intros i. constructor; [|constructor; [|constructor]].
    + eapply L_attribute; [apply Ch_set|apply Ch_set| |split; discriminate].
      intros a a' Ha. cbn in *. now subst.
    + apply L_append_contents. eapply LC_text; [constructor..|exact I].
Qed.
Example C73_example_like : exists r, Gives en_comment en_word r /\ LikeResult en_text (inl en_result) r.
Proof.
  exact (proj1 (C73_like en_text en_events en_comment en_program en_word en_coherent en_like_events en_like)
           (inl en_result) en_gives).
Qed.
