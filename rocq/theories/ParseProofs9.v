(** The statements of Prop_Parse about [from_str], and the counterexamples. *)
From Coq Require Import String List NArith Arith Bool Lia.
Import ListNotations.
From Verif Require Import Text Event Input Parse Selector Template SpecText SpecAttr SpecLocation SpecParse
  SpecRender TextProofs AttrProofs AttrProofs2 LocationProofs ParseProofs ParseProofs2 ParseProofs3
  ParseProofs4 ParseProofs5 ParseProofs6 ParseProofs7 ParseProofs8 FileProofs MiscProofs.
Local Open Scope N_scope.

Lemma from_str_doc s o evs : from_str s o = TOk evs -> Document (max_stack_depth o) s evs.
Proof. intros H. apply from_str_ok in H. now apply parse_iff. Qed.
Lemma from_str_fault s o e : from_str s o = TErr (ParseError e) ->
  exists pre rest m st evs, s = pre ++ rest /\
    Reads (max_stack_depth o) s pre rest m st evs /\ Fault (max_stack_depth o) pre rest st e.
Proof. intros H. apply from_str_err in H. now apply parse_error_fault. Qed.

Lemma no_unexpected_input s o l : from_str s o <> TErr (ParseError (UnexpectedInput l)).
Proof. intros H. apply from_str_fault in H. destruct H as (? & ? & ? & ? & ? & _ & _ & []). Qed.
Lemma from_str_forest s o evs : from_str s o = TOk evs -> Forest evs.
Proof. intros H. apply from_str_doc in H. eapply document_forest; eauto. Qed.

Lemma depth_limit_exact s d l evs :
  from_str s (Options (Some d) l) = TOk evs <->
  from_str s (Options None l) = TOk evs /\ DepthAtMost d evs.
Proof. rewrite !from_str_ok. cbn [max_input_len]. rewrite limit_exact. tauto. Qed.
Lemma depth_limit_agrees s d l :
  from_str s (Options (Some d) l) = from_str s (Options None l) \/
  exists tag loc, from_str s (Options (Some d) l) = TErr (ParseError (StackLimitExceeded tag loc d)).
Proof.
  unfold from_str. cbn [max_input_len].
  destruct (limit_agrees s d l) as [E|(tag & loc & E)]; rewrite E;
    destruct l as [l|]; try destruct (l <? str_len s)%nat; eauto.
Qed.
Lemma depth_limit_error s d l tag loc k :
  from_str s (Options (Some d) l) = TErr (ParseError (StackLimitExceeded tag loc k)) ->
  k = d /\ exists pre slice rest t a m st evs, s = pre ++ slice ++ rest /\ AtPrefix pre loc /\
    Reads None s pre (slice ++ rest) m st evs /\ opens evs = (closes evs + d)%nat /\
    Spells slice (OpeningTag t a) /\ id_str t = tag.
Proof. intros H. apply from_str_err in H. eapply limit_exceeded; eauto. Qed.
Lemma depth_no_limit s l tag loc k :
  from_str s (Options None l) <> TErr (ParseError (StackLimitExceeded tag loc k)).
Proof. intros H. apply from_str_err in H. now apply unlimited_no_limit_error in H. Qed.

Lemma from_str_slices s o evs : from_str s o = TOk evs ->
  exists slices, s = concat slices /\ Forall2 SliceOf slices evs.
Proof. intros H. apply from_str_doc in H. eapply reads_slices; eauto. Qed.
Lemma from_str_document s o evs : max_input_len o = None ->
  (from_str s o = TOk evs <-> Document (max_stack_depth o) s evs).
Proof. intros H. rewrite from_str_ok, H, parse_iff. tauto. Qed.
Lemma spells_example : Spells (lit "<li  class = ""a"" >")
  (OpeningTag (name (lit "li")) [Attribute (name (lit "class")) (Some (raw (lit "a")))]).
Proof.
  assert (P : from_str (lit "<li  class = ""a"" ></li>") (Options None None)
    = TOk [OpeningTag (name (lit "li")) [Attribute (name (lit "class")) (Some (raw (lit "a")))];
           ClosingTag (name (lit "li"))]) by (vm_compute; reflexivity).
  destruct (from_str_slices _ _ _ P) as (sl & E & F).
  inversion F as [|a ? l ? Ha F2]; subst. inversion F2 as [|b ? l2 ? Hb F3]; subst. inversion F3; subst.
  cbn [SliceOf] in *. simpl in E. rewrite app_nil_r in E. clear F F2 F3.
  inversion Hb as [| | |? n He| | |]; subst. destruct (end_tag_inside _ _ He) as (e' & -> & H60).
  destruct (end_tag_last _ _ He) as (e2 & E2).
  assert (Z : forall (a b x y : str), a ++ 60 :: b = x ++ 60 :: y -> ~ In 60 b -> ~ In 60 y -> b = y).
  { clear. induction a as [|c a IH]; intros b [|d x] y E Hb Hy; simpl in E.
    - congruence.
    - injection E as _ E. exfalso. apply Hb. rewrite E. apply in_elt.
    - injection E as _ E. exfalso. apply Hy. rewrite <- E. apply in_elt.
    - injection E as -> E. eauto. }
  change (lit "<li  class = ""a"" ></li>") with (lit "<li  class = ""a"" >" ++ 60 :: lit "/li>") in E.
  assert (X : lit "/li>" = e').
  { apply (Z (lit "<li  class = ""a"" >") (lit "/li>") a e'); auto. vm_compute. intuition discriminate. }
  rewrite X in E. apply app_inv_tail in E. rewrite E. exact Ha.
Qed.

(** ** Round trip *)

Lemma round_trip_refuted : exists s evs e,
  from_str s (Options None None) = TOk evs /\
  from_str (display_events evs) (Options None None) = TErr (ParseError e).
Proof. exists (lit "< !--x />"). eexists. eexists.
  split; [vm_compute; reflexivity|]. vm_compute; reflexivity. Qed.
Lemma round_trip_changed : exists s evs evs',
  from_str s (Options None None) = TOk evs /\
  from_str (display_events evs) (Options None None) = TOk evs' /\ evs <> evs'.
Proof.
  exists (lit "< !--x y=""-->"" />"). eexists. eexists.
  split; [vm_compute; reflexivity|]. split; [vm_compute; reflexivity|]. discriminate.
Qed.
Definition bangless (ev : event) : bool :=
  match ev with
  | OpeningTag t _ | SelfClosedTag t _ | VoidTag t _ =>
      match id_str t with c :: _ => negb (N.eqb 33 c) | [] => true end
  | _ => true
  end.
Lemma no_bang_check evs : forallb bangless evs = true -> Forall NoBang evs.
Proof.
  intros H. apply Forall_forall. intros ev Hi. rewrite forallb_forall in H. specialize (H ev Hi).
  assert (X : forall t, match id_str t with c :: _ => negb (N.eqb 33 c) | [] => true end = true ->
                        no_bang (id_str t)).
  { intros t E (c & r & Et & <-). rewrite Et in E. discriminate. }
  destruct ev; cbn in *; auto.
Qed.

(** ** Raw text, kinds of tags, errors *)

Lemma raw_opaque_str s o a t at' b : from_str s o = TOk (a ++ OpeningTag t at' :: b) ->
  RawName (id_str t) ->
  exists c t' b' pre rest m st,
    b = RawData (raw c) :: ClosingTag t' :: b' /\ s = pre ++ c ++ rest /\
    Reads (max_stack_depth o) s pre (c ++ rest) m st (a ++ [OpeningTag t at']) /\
    EndsRaw (id_str t) rest /\
    (forall p q, c = p ++ q -> q <> [] -> ~ EndsRaw (id_str t) (q ++ rest)).
Proof. intros H. apply from_str_doc in H. now apply raw_opaque. Qed.
Lemma raw_only_str s o a c b : from_str s o = TOk (a ++ RawData c :: b) ->
  exists a' t at', a = a' ++ [OpeningTag t at'] /\ RawName (id_str t).
Proof. intros H. apply from_str_doc in H. eapply raw_only; eauto. Qed.
Lemma void_exact_str s o evs ev : from_str s o = TOk evs -> In ev evs ->
  match ev with
  | VoidTag t _ => VoidName (id_str t)
  | OpeningTag t _ | SelfClosedTag t _ => ~ VoidName (id_str t)
  | _ => True
  end.
Proof. intros H. apply from_str_doc in H. eapply void_exact; eauto. Qed.
Lemma tag_kind_str s o pre slice rest st evs b n a slash :
  from_str s o = TOk (evs ++ b) ->
  Reads (max_stack_depth o) s pre (slice ++ rest) None st evs -> Tag slice n a slash ->
  exists ev b', b = ev :: b' /\ TagEvent n a slash ev.
Proof. intros H. apply from_str_doc in H. eapply tag_kind; eauto. Qed.

Lemma errors_true s o e : from_str s o = TErr (ParseError e) ->
  exists pre rest m st evs, s = pre ++ rest /\
    Reads (max_stack_depth o) s pre rest m st evs /\ Fault (max_stack_depth o) pre rest st e.
Proof. exact (from_str_fault s o e). Qed.
Lemma errors_no_document s o e evs : from_str s o = TErr (ParseError e) ->
  ~ Document (max_stack_depth o) s evs.
Proof. intros H D. apply from_str_err in H. apply parse_iff in D. congruence. Qed.

Lemma at_prefix_offset p l : AtPrefix p l -> offset l = length (utf8 p).
Proof. intros (_ & _ & H). exact H. Qed.
Lemma utf8_ne c q : (0 < length (utf8 (c :: q)))%nat.
Proof.
  change (utf8 (c :: q)) with (utf8_char c ++ utf8 q). rewrite app_length.
  pose proof (utf8_char_pos c). lia.
Qed.
Lemma located_not_start pre s r l : LocatedAt pre s r l -> (length r < length s)%nat -> ~ AtPrefix pre l.
Proof.
  intros (q & E & H) L H'. apply at_prefix_offset in H, H'. rewrite utf8_app, app_length in H.
  destruct q as [|c q]; [simpl in E; subst; lia|]. pose proof (utf8_ne c q). lia.
Qed.
Lemma tag_start_shorter s n a r : TagStart s n a r -> (length r < length s)%nat /\ exists x, s = 60 :: x.
Proof.
  intros (_ & _ & w & w' & s' & -> & _ & _ & _ & Ha). apply attrs_suffix in Ha. destruct Ha as [q ->].
  split; [|eauto]. simpl. rewrite !app_length. lia.
Qed.
Lemma never_at_start s o e tag l : from_str s o = TErr (ParseError e) ->
  e = ExpectedOpeningTagClose tag l \/ e = ExpectedClosingTagClose tag l ->
  exists pre rest m st evs, s = pre ++ 60 :: rest /\
    Reads (max_stack_depth o) s pre (60 :: rest) m st evs /\
    Fault (max_stack_depth o) pre (60 :: rest) st e /\ ~ AtPrefix pre l.
Proof.
  intros H He. destruct (from_str_fault _ _ _ H) as (pre & rest & m & st & evs & E & R & F).
  assert (X : exists x, rest = 60 :: x /\ ~ AtPrefix pre l).
  { destruct He as [->| ->]; cbn [Fault] in F.
    - destruct F as (a & r & HL & _ & [(T & _)|(w & T & _)]);
        destruct (tag_start_shorter _ _ _ _ T) as [Hl [x ->]]; exists x; split; auto;
        apply (located_not_start _ _ _ _ HL); auto.
      simpl in Hl. rewrite app_length in Hl. simpl. lia.
    - destruct F as (w & w' & w'' & r & -> & _ & _ & _ & _ & _ & HL). eexists. split; [reflexivity|].
      apply (located_not_start _ _ _ _ HL). simpl. rewrite app_length. simpl. rewrite !app_length. lia. }
  destruct X as (x & -> & Hx). exists pre, x, m, st, evs. auto.
Qed.
Lemma only_at_start (s : str) l : ~ In 60 s -> offset l <> 0%nat ->
  forall p r, 60 :: s = p ++ 60 :: r -> ~ AtPrefix p l.
Proof.
  intros Hs Hl p r E H. apply at_prefix_offset in H. destruct p as [|c p]; [simpl in H; congruence|].
  injection E as _ E. apply Hs. rewrite E. apply in_app_iff. right. now left.
Qed.
Lemma opening_location : exists s tag l,
  from_str s (Options None None) = TErr (ParseError (ExpectedOpeningTagClose tag l)) /\
  forall p r, s = p ++ 60 :: r -> ~ AtPrefix p l.
Proof.
  exists (lit "<p class"). eexists. eexists. split; [vm_compute; reflexivity|].
  apply (only_at_start (lit "p class")); [vm_compute; intuition discriminate|discriminate].
Qed.
Lemma closing_location : exists s tag l,
  from_str s (Options None None) = TErr (ParseError (ExpectedClosingTagClose tag l)) /\
  forall p r, s = p ++ 60 :: r -> ~ AtPrefix p l.
Proof.
  exists (lit "</p x"). eexists. eexists. split; [vm_compute; reflexivity|].
  apply (only_at_start (lit "/p x")); [vm_compute; intuition discriminate|discriminate].
Qed.

Lemma static_markup_free s : MarkupFree (enc_str (enc_from_unencoded_static_str s)).
Proof.
  rewrite static_str. destruct (escape_inert s) as [H _].
  repeat split; intros X; apply H in X; tauto.
Qed.

Lemma from_str_no_fuel s o : from_str s o <> TFuel.
Proof. destruct (from_str_total s o) as [[? ->]|[? ->]]; discriminate. Qed.
Lemma from_file_total path opened o :
  (exists evs, from_file path opened o = TOk evs) \/ (exists e, from_file path opened o = TErr e).
Proof.
  pose proof (file_no_fuel path opened o (fun s => from_str_no_fuel s o)) as Hf. revert Hf.
  unfold from_file. destruct opened as [reads|code]; [|eauto].
  destruct (read_loop _ _ _ _ _ _) as [[s|e]|]; eauto; [|congruence].
  destruct (from_str_total s o) as [[? ->]|[? ->]]; eauto.
Qed.

Lemma enriched_example : let txt s := Data (enc_from_unencoded_static_str (lit s)) in
  exists evs evs' evs'',
  from_str (lit "<p></p><script></x</script><i/>") (Options None None) = TOk evs /\
  evs' = [txt "<b>"%string; OpeningTag (name (lit "p")) []; ClosingTag (name (lit "p"));
          OpeningTag (name (lit "script")) []; txt "</"%string; RawData (raw (lit "</x")); txt "script>"%string;
          ClosingTag (name (lit "script"));
          OpeningTag (name (lit "i")) []; txt ">"%string; ClosingTag (name (lit "i"))] /\
  Enriched evs evs' /\
  from_str (display_events evs') (Options None None) = TOk evs'' /\
  nth_error evs'' 4 = Some (RawData (raw (lit "&lt;/</xscript&gt;"))).
Proof.
  intros txt. eexists. eexists. eexists. split; [vm_compute; reflexivity|]. split; [reflexivity|]. split.
  - unfold txt.
    repeat first
      [ apply en_nil
      | apply en_event; [apply ed_same|]
      | apply en_text; [apply static_markup_free|]
      | apply (en_fill _ [] [] [Data (enc_from_unencoded_static_str (lit ">"))]) ].
    + intros a [].
    + constructor; [|constructor]. eexists. split; [reflexivity|apply static_markup_free].
  - split; [vm_compute; reflexivity|reflexivity].
Qed.
