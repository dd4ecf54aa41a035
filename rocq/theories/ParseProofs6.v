(** Consequences for parsed templates: nesting, depth, slices, raw text, kinds of tags. *)
From Coq Require Import String List NArith Arith Bool Lia.
Import ListNotations.
From Verif Require Import Text Event Input Parse Selector Template SpecText SpecAttr SpecLocation SpecParse
  TextProofs AttrProofs AttrProofs2 LocationProofs ParseProofs ParseProofs2 ParseProofs3 ParseProofs4
  ParseProofs5.
Local Open Scope N_scope.

(** ** Totality and the length limit *)

Lemma from_str_total s o :
  (exists evs, from_str s o = TOk evs) \/ (exists e, from_str s o = TErr e).
Proof.
  unfold from_str. destruct (parse_total s o) as [[evs ->]|[e ->]];
    destruct (max_input_len o) as [l|]; try destruct (l <? str_len s)%nat; eauto.
Qed.
Lemma collect_no_len fuel d l l' r m st acc :
  collect fuel (Iter r m st (Options d l)) acc = collect fuel (Iter r m st (Options d l')) acc.
Proof.
  revert r m st acc; induction fuel as [|fuel IH]; intros r m st acc; [reflexivity|].
  cbn [collect]. unfold iter_next, iter_next_close, finalize.
  cbn [it_rest it_mode it_stack it_options max_stack_depth].
  destruct (input_is_empty r); [destruct st; reflexivity|].
  destruct (parse m r) as [[[loc ev] m' r']| | |]; try reflexivity.
  destruct ev; cbn [it_rest it_mode it_stack it_options]; try apply IH.
  - destruct d as [d|].
    + destruct (Nat.eqb d (length st)); [reflexivity|apply IH].
    + apply IH.
  - destruct st as [|e st]; [reflexivity|]. destruct (negb (ident_eqb tag (loc_value e))); [reflexivity|].
    apply IH.
Qed.
Lemma from_str_within s d n : (length (utf8 s) <= n)%nat ->
  from_str s (Options d (Some n)) = from_str s (Options d None).
Proof.
  intros H. unfold from_str. cbn [max_input_len]. rewrite str_len_utf8.
  replace (n <? length (utf8 s))%nat with false by (symmetry; apply Nat.ltb_ge; lia).
  unfold parse_events, iter_new. now rewrite (collect_no_len _ d (Some n) None).
Qed.
Lemma from_str_over s d n : (n < length (utf8 s))%nat ->
  from_str s (Options d (Some n)) = TErr (LengthLimitExceeded n).
Proof.
  intros H. unfold from_str. cbn [max_input_len]. rewrite str_len_utf8.
  replace (n <? length (utf8 s))%nat with true by (symmetry; apply Nat.ltb_lt; lia).
  reflexivity.
Qed.
Lemma from_str_ok s o evs : from_str s o = TOk evs <->
  parse_events s o = POk evs /\ match max_input_len o with Some n => (length (utf8 s) <= n)%nat | None => True end.
Proof.
  unfold from_str. destruct (max_input_len o) as [n|].
  - rewrite str_len_utf8. destruct (Nat.ltb_spec n (length (utf8 s))).
    + split; [discriminate|]. intros [_ X]. lia.
    + destruct (parse_events s o); split; intros X; try discriminate; try (destruct X as [X _]; discriminate).
      * injection X as ->. auto.
      * destruct X as [X _]. injection X as ->. auto.
  - destruct (parse_events s o); split; intros X; try discriminate; try (destruct X as [X _]; discriminate).
    * injection X as ->. auto.
    * destruct X as [X _]. injection X as ->. auto.
Qed.
Lemma from_str_err s o e : from_str s o = TErr (ParseError e) -> parse_events s o = PErr e.
Proof.
  unfold from_str. destruct (max_input_len o) as [n|]; [destruct (n <? str_len s)%nat; [discriminate|]|];
    destruct (parse_events s o); congruence.
Qed.

(** ** Nesting *)

Lemma forest_app a b : Forest a -> Forest b -> Forest (a ++ b).
Proof.
  intros H Hb. induction H as [|ev rest Hl _ IH|t at' kids t' rest E Hk _ Hr IH]; simpl; auto.
  - now constructor.
  - rewrite <- app_assoc. simpl. now constructor.
Qed.
(** event lists with open elements *)
Inductive OpenForest : list str -> list event -> Prop :=
| OF_closed f : Forest f -> OpenForest [] f
| OF_open ns evs t a f : OpenForest ns evs -> Forest f ->
    OpenForest (id_str t :: ns) (evs ++ OpeningTag t a :: f).
Lemma open_forest_app ns evs g : OpenForest ns evs -> Forest g -> OpenForest ns (evs ++ g).
Proof.
  intros H Hg. destruct H as [f Hf|ns evs t a f Ho Hf].
  - constructor. now apply forest_app.
  - rewrite <- app_assoc. simpl. constructor; auto. now apply forest_app.
Qed.
Lemma item_leaf m slice rest ev m' : Item m slice rest ev m' ->
  match ev with OpeningTag _ _ | ClosingTag _ => True | _ => is_leaf ev end.
Proof.
  destruct 1 as [? ? ev ? Hs _ _|]; [|exact I]. destruct Hs; exact I.
Qed.
Lemma reads_forest limit s0 pre s m st evs : Reads limit s0 pre s m st evs ->
  OpenForest (map snd st) evs.
Proof.
  induction 1 as [|pre slice rest m m' st st' evs ev HR IH Hne Hi Hn].
  - constructor. constructor.
  - apply item_leaf in Hi.
    destruct ev; cbn [Nest] in Hn; cbn in Hi; try contradiction;
      try (subst st'; apply open_forest_app; auto; constructor; [exact I|constructor]).
    + destruct Hn as [_ ->]. cbn [map snd]. constructor; auto. constructor.
    + destruct Hn as (p & n & -> & Hs). cbn [map snd] in IH.
      inversion IH as [|ns evs0 t a f Ho Hf E1 E2]; subst.
      rewrite <- app_assoc. apply open_forest_app; auto. simpl.
      apply (F_elem t a f tag []); auto.
      * now apply same_name_sym.
      * constructor.
Qed.
Lemma document_forest limit s evs : Document limit s evs -> Forest evs.
Proof. intros H. apply reads_forest in H. inversion H; auto. Qed.

(** ** Depth *)

Lemma opens_app a b : opens (a ++ b) = (opens a + opens b)%nat.
Proof. induction a as [|ev a IH]; simpl; auto. destruct ev; simpl; lia. Qed.
Lemma closes_app a b : closes (a ++ b) = (closes a + closes b)%nat.
Proof. induction a as [|ev a IH]; simpl; auto. destruct ev; simpl; lia. Qed.
Lemma reads_balance limit s0 pre s m st evs : Reads limit s0 pre s m st evs ->
  opens evs = (closes evs + length st)%nat.
Proof.
  induction 1 as [|pre slice rest m m' st st' evs ev HR IH Hne Hi Hn]; [reflexivity|].
  rewrite opens_app, closes_app.
  destruct ev; cbn [Nest opens closes] in *; try (subst; lia).
  - destruct Hn as [_ ->]. simpl. lia.
  - destruct Hn as (p & n & -> & _). simpl in *. lia.
Qed.
Lemma depth_app d a b : DepthAtMost d (a ++ b) -> DepthAtMost d a.
Proof. intros H p q ->. apply (H p (q ++ b)). now rewrite app_assoc. Qed.
Lemma depth_snoc d a ev : DepthAtMost d a -> (opens (a ++ [ev]) <= closes (a ++ [ev]) + d)%nat ->
  DepthAtMost d (a ++ [ev]).
Proof.
  intros H Hl p q E. destruct q as [|x q] using rev_ind.
  - rewrite app_nil_r in E. now subst.
  - rewrite app_assoc in E. apply app_inj_tail in E. destruct E as [-> _]. eapply H; eauto.
Qed.
Lemma reads_limit d s0 pre s m st evs :
  Reads (Some d) s0 pre s m st evs <-> Reads None s0 pre s m st evs /\ DepthAtMost d evs.
Proof.
  split.
  - intros H. assert (L : (length st <= d)%nat /\ Reads None s0 pre s m st evs /\ DepthAtMost d evs).
    { induction H as [|pre slice rest m m' st st' evs ev HR IH Hne Hi Hn].
      - split; [simpl; lia|]. split; [constructor|]. intros p q E. symmetry in E.
        apply app_eq_nil in E. destruct E as [-> _]. simpl. lia.
      - destruct IH as (L & HR' & D). assert (L' : (length st' <= d)%nat).
        { destruct ev; cbn [Nest] in Hn; try (now subst st').
          - destruct Hn as [Hd ->]. simpl. assert (length st <> d) by congruence. lia.
          - destruct Hn as (p & n & -> & _). simpl in L. lia. }
        assert (HR2 : Reads None s0 (pre ++ slice) rest m' st' (evs ++ [ev])).
        { eapply R_step; eauto. destruct ev; cbn [Nest] in *; auto. destruct Hn as [_ ->]. split; [discriminate|reflexivity]. }
        split; auto. split; auto. apply depth_snoc; auto.
        apply reads_balance in HR2. lia. }
    tauto.
  - intros [H D]. induction H as [|pre slice rest m m' st st' evs ev HR IH Hne Hi Hn]; [constructor|].
    pose proof (depth_app _ _ _ D) as D'. eapply R_step; eauto.
    destruct ev; cbn [Nest] in *; auto. destruct Hn as [_ ->]. split; auto.
    apply reads_balance in HR. specialize (D _ [] (eq_sym (app_nil_r _))).
    rewrite opens_app, closes_app in D. cbn [opens closes] in D.
    assert (length st <> d) by lia. congruence.
Qed.
Lemma limit_exact s d evs l :
  parse_events s (Options (Some d) l) = POk evs <->
  parse_events s (Options None l) = POk evs /\ DepthAtMost d evs.
Proof. rewrite !parse_iff. apply reads_limit. Qed.

(** with a limit the parser does the same, or stops with the limit error *)
Lemma collect_limit fuel d l r m st acc :
  collect fuel (Iter r m st (Options (Some d) l)) acc = collect fuel (Iter r m st (Options None l)) acc
  \/ exists tag loc, collect fuel (Iter r m st (Options (Some d) l)) acc = PErr (StackLimitExceeded tag loc d).
Proof.
  revert r m st acc; induction fuel as [|fuel IH]; intros r m st acc; [now left|].
  cbn [collect]. unfold iter_next, iter_next_close, finalize.
  cbn [it_rest it_mode it_stack it_options max_stack_depth].
  destruct (input_is_empty r); [destruct st; now left|].
  destruct (parse m r) as [[[loc ev] m' r']| | |]; try now left.
  destruct ev; cbn [it_rest it_mode it_stack it_options]; try apply IH.
  - destruct (Nat.eqb d (length st)); [right; eauto|apply IH].
  - destruct st as [|e st]; [now left|]. destruct (negb (ident_eqb tag (loc_value e))); [now left|].
    apply IH.
Qed.
Lemma limit_agrees s d l :
  parse_events s (Options (Some d) l) = parse_events s (Options None l)
  \/ exists tag loc, parse_events s (Options (Some d) l) = PErr (StackLimitExceeded tag loc d).
Proof. apply collect_limit. Qed.
Lemma limit_exceeded s d l tag loc k :
  parse_events s (Options (Some d) l) = PErr (StackLimitExceeded tag loc k) ->
  k = d /\ exists pre slice rest t a m st evs, s = pre ++ slice ++ rest /\ AtPrefix pre loc /\
    Reads None s pre (slice ++ rest) m st evs /\ opens evs = (closes evs + d)%nat /\
    Spells slice (OpeningTag t a) /\ id_str t = tag.
Proof.
  intros H. apply parse_error_fault in H. destruct H as (pre & rest & m & st & evs & E & R & F).
  cbn [max_stack_depth Fault] in *. destruct F as (Ha & Ek & Hl & slice & rest' & t & a & -> & Hs & Ht).
  injection Ek as <-. split; auto. exists pre, slice, rest', t, a, m, st, evs.
  apply reads_limit in R. destruct R as [R _]. pose proof (reads_balance _ _ _ _ _ _ _ R) as B.
  rewrite Hl in B. auto 10.
Qed.
Lemma unlimited_no_limit_error s l tag loc k :
  parse_events s (Options None l) <> PErr (StackLimitExceeded tag loc k).
Proof.
  intros H. apply parse_error_fault in H. destruct H as (pre & rest & m & st & evs & E & R & F).
  cbn [max_stack_depth Fault] in F. destruct F as (_ & X & _). discriminate.
Qed.

(** ** Slices *)

Lemma item_slice m slice rest ev m' : Item m slice rest ev m' -> SliceOf slice ev.
Proof. destruct 1 as [? ? ev ? Hs _ _|]; [|reflexivity]. destruct Hs; simpl; econstructor; eauto. Qed.
Lemma reads_slices limit s0 pre s m st evs : Reads limit s0 pre s m st evs ->
  exists slices, pre = concat slices /\ Forall2 SliceOf slices evs.
Proof.
  induction 1 as [|pre slice rest m m' st st' evs ev HR (slices & -> & IH) Hne Hi Hn].
  - exists []. split; [reflexivity|constructor].
  - exists (slices ++ [slice]). split.
    + rewrite concat_app. simpl. now rewrite app_nil_r.
    + apply Forall2_app; auto. constructor; [|constructor]. eapply item_slice; eauto.
Qed.
Lemma spells_functional slice ev ev' : Spells slice ev -> Spells slice ev' -> ev = ev'.
Proof.
  assert (X : forall ev, Spells slice ev -> exists m, Item None slice [] ev m).
  { intros ev0 H. assert (Y : exists m, After ev0 m).
    { destruct H as [| | | | | |s n a T Hv]; try (exists None; reflexivity).
      assert (V : ValidName n). { destruct T as (r & (_ & _ & w & w' & s' & _ & _ & Hn & _) & _). apply Hn. }
      exists (match mode_for_tag n false with ModeData => None | ModeRawData t => Some t end).
      apply mode_for_open; auto. destruct (mode_for_tag n false); reflexivity. }
    destruct Y as [m Y]. exists m. constructor; auto. destruct ev0; auto. }
  intros H H'. destruct (X _ H) as [m1 I1]. destruct (X _ H') as [m2 I2].
  apply (parse_data_complete []) in I1. apply (parse_data_complete []) in I2. unfold item_ok in *. congruence.
Qed.

(** ** Reading forward *)

Inductive Lex : option str -> str -> list event -> Prop :=
| L_nil m : Lex m [] []
| L_cons m slice rest ev m' evs : slice ++ rest <> [] -> Item m slice rest ev m' ->
    Lex m' rest evs -> Lex m (slice ++ rest) (ev :: evs).
(** nesting of names *)
Inductive Run (limit : option nat) : list str -> list event -> list str -> Prop :=
| Run_nil ns : Run limit ns [] ns
| Run_open ns t a evs ns' : limit <> Some (length ns) -> Run limit (id_str t :: ns) evs ns' ->
    Run limit ns (OpeningTag t a :: evs) ns'
| Run_close n ns t evs ns' : SameName (id_str t) n -> Run limit ns evs ns' ->
    Run limit (n :: ns) (ClosingTag t :: evs) ns'
| Run_leaf ns ev evs ns' : is_leaf ev -> Run limit ns evs ns' -> Run limit ns (ev :: evs) ns'.
Lemma run_app limit ns a ns1 b ns2 : Run limit ns a ns1 -> Run limit ns1 b ns2 -> Run limit ns (a ++ b) ns2.
Proof. intros H H2. induction H; simpl; auto; constructor; auto. Qed.

Lemma app_same_length {A} (a b c d : list A) : a ++ b = c ++ d -> length a = length c -> a = c /\ b = d.
Proof.
  revert c; induction a as [|x a IH]; intros [|y c] E L; try discriminate; auto.
  simpl in E. injection E as -> E. simpl in L. destruct (IH c E) as [-> ->]; auto.
Qed.
Lemma reads_lex limit s0 pre s m st evs : Reads limit s0 pre s m st evs ->
  forall b, Lex m s b -> forall a c, evs ++ b = a ++ c -> (length a <= length evs)%nat ->
  exists pre1 s1 m1 st1, s0 = pre1 ++ s1 /\ Reads limit s0 pre1 s1 m1 st1 a /\ Lex m1 s1 c.
Proof.
  induction 1 as [|pre slice rest m m' st st' evs ev HR IH Hne Hi Hn]; intros b HL a c E L.
  - destruct a; [|simpl in L; lia]. simpl in E. subst c. exists [], s0, None, []. repeat split; auto. constructor.
  - rewrite app_length in L. simpl in L. destruct (Nat.eq_dec (length a) (length evs + 1)) as [El|El].
    + assert (Ea : a = evs ++ [ev] /\ c = b).
      { symmetry in E. apply app_same_length in E; auto. rewrite app_length. exact El. }
      destruct Ea as [-> ->]. exists (pre ++ slice), rest, m', st'.
      assert (R : Reads limit s0 (pre ++ slice) rest m' st' (evs ++ [ev])) by (eapply R_step; eauto).
      split; [eapply reads_app; eauto|]. auto.
    + apply (IH (ev :: b)).
      * now apply L_cons with m'.
      * now rewrite <- app_assoc in E.
      * lia.
Qed.
Lemma document_split limit s a b : Document limit s (a ++ b) ->
  exists pre s1 m st, s = pre ++ s1 /\ Reads limit s pre s1 m st a /\ Lex m s1 b.
Proof.
  intros H. apply (reads_lex _ _ _ _ _ _ _ H []); auto.
  - constructor.
  - apply app_nil_r.
  - rewrite app_length. lia.
Qed.
Lemma reads_run limit s0 pre s m st evs : Reads limit s0 pre s m st evs -> Run limit [] evs (map snd st).
Proof.
  induction 1 as [|pre slice rest m m' st st' evs ev HR IH Hne Hi Hn]; [constructor|].
  eapply run_app; eauto. apply item_leaf in Hi.
  destruct ev; cbn [Nest] in Hn; cbn in Hi; try contradiction;
    try (subst; apply Run_leaf; [exact I|constructor]).
  - destruct Hn as [H ->]. cbn [map snd]. constructor; [now rewrite map_length|constructor].
  - destruct Hn as (p & n & -> & Hs). cbn [map snd]. constructor; auto. constructor.
Qed.
Lemma lex_reads limit s0 b : forall pre s m st evs ns', Reads limit s0 pre s m st evs ->
  Lex m s b -> Run limit (map snd st) b ns' ->
  exists m' st', map snd st' = ns' /\ Reads limit s0 s0 [] m' st' (evs ++ b).
Proof.
  induction b as [|ev b IH]; intros pre s m st evs ns' HR HL Hrun.
  - inversion HL; subst. inversion Hrun; subst. exists m, st. split; auto. rewrite app_nil_r.
    pose proof (reads_app _ _ _ _ _ _ _ HR) as E. rewrite app_nil_r in E. now subst.
  - inversion HL as [|? slice rest ? m' ? Hne Hi HL']; subst.
    assert (N : exists st', Nest limit pre ev st st' /\ Run limit (map snd st') b ns').
    { inversion Hrun as [|? t a ? ? Hl Hr|n ns t ? ? Hs Hr E|? ? ? ? Hlf Hr]; subst.
      - exists ((pre, id_str t) :: st). split; auto. split; auto. now rewrite map_length in Hl.
      - destruct st as [|[p n'] st]; [discriminate|]. cbn [map snd] in E. injection E as E1 E2. subst.
        exists st. split; auto. eexists p, _. eauto.
      - exists st. split; auto. destruct ev; cbn in Hlf |- *; try contradiction; reflexivity. }
    destruct N as (st' & Hn & Hr).
    destruct (IH (pre ++ slice) rest m' st' (evs ++ [ev]) ns') as (m2 & st2 & E & R); auto.
    + eapply R_step; eauto.
    + exists m2, st2. split; auto. now rewrite <- app_assoc in R.
Qed.
Lemma document_iff limit s evs : Document limit s evs <-> Lex None s evs /\ Run limit [] evs [].
Proof.
  split.
  - intros H. split.
    + destruct (document_split limit s [] evs H) as (pre & s1 & m & st & E & R & L).
      inversion R; subst; auto. now destruct evs0.
    + apply reads_run in H. exact H.
  - intros [HL HR]. destruct (lex_reads limit s evs [] s None [] [] []) as (m & st & E & R); auto.
    + constructor.
    + destruct st; [|discriminate]. unfold Document.
      pose proof (reads_mode _ _ _ _ _ _ _ R) as Hm. destruct m; [tauto|exact R].
Qed.

(** ** Raw text *)

Lemma end_tag_inside e n : EndTag e n -> exists e', e = 60 :: e' /\ ~ In 60 e'.
Proof.
  intros (w & w' & w'' & -> & Hw & Hw' & Hw'' & Hn). eexists. split; [reflexivity|].
  intros Hi. rewrite in_app_iff in Hi. cbn [In] in Hi. rewrite !in_app_iff in Hi.
  assert (B : forall w, Blank w -> In 60 w -> False).
  { intros v Hv Hi2. eapply blank_in in Hi2; eauto. now apply ns60. }
  assert (M : In 60 n -> False).
  { intros X. destruct Hn as [(_ & Hd & _) _]. apply (Hd 60); auto. unfold Delimiter; simpl; tauto. }
  destruct Hi as [Hi|[Hi|[Hi|[Hi|[Hi|[Hi|[]]]]]]]; eauto; discriminate.
Qed.
Lemma item_ok_inj p a b ev m p' a' b' ev' m' :
  item_ok p a b ev m = item_ok p' a' b' ev' m' -> ev = ev' /\ b = b' /\ m = m'.
Proof.
  unfold item_ok, at_. intros H. split; [congruence|]. split; [congruence|].
  assert (X : mode_of m = mode_of m') by congruence. destruct m, m'; simpl in X; congruence.
Qed.
Lemma lex_item m slice rest ev m' evs : good_mode m -> slice ++ rest <> [] -> Item m slice rest ev m' ->
  Lex m (slice ++ rest) evs -> exists evs', evs = ev :: evs' /\ Lex m' rest evs'.
Proof.
  intros Hg Hne Hi HL. inversion HL as [? E0|? slice0 rest0 ev0 m0 evs0 _ Hi0 HL0 E0 E1].
  - exfalso. apply Hne. congruence.
  - pose proof (item_complete [] _ _ _ _ _ Hg Hi) as P1. pose proof (item_complete [] _ _ _ _ _ Hg Hi0) as P2.
    rewrite E1 in P2. rewrite P1 in P2. apply item_ok_inj in P2. destruct P2 as (-> & -> & ->).
    exists evs0. split; auto.
Qed.
Lemma lex_end_tag e r n evs : EndTag e n -> Lex None (e ++ r) evs ->
  exists evs', evs = ClosingTag (name n) :: evs'.
Proof.
  intros He HL. destruct (lex_item None e r (ClosingTag (name n)) None evs) as (evs' & -> & _); eauto.
  - exact I.
  - destruct He as (w & w' & w'' & -> & _). discriminate.
  - constructor; [now constructor|reflexivity|exact I].
Qed.

Lemma run_det limit ns e n1 : Run limit ns e n1 -> forall n2, Run limit ns e n2 -> n1 = n2.
Proof.
  induction 1; intros n2 H2; inversion H2; subst; auto;
    match goal with K : is_leaf _ |- _ => destruct K | _ => idtac end.
Qed.
Lemma run_split limit a : forall ns b n2, Run limit ns (a ++ b) n2 ->
  exists n1, Run limit ns a n1 /\ Run limit n1 b n2.
Proof.
  induction a as [|ev a IH]; intros ns b n2 H; simpl in H.
  - exists ns. split; auto. constructor.
  - inversion H; subst;
      match goal with K : Run _ _ (a ++ b) _ |- _ => destruct (IH _ _ _ K) as (n1 & R1 & R2) end;
      exists n1; (split; [constructor; auto|auto]).
Qed.
Lemma reads_rest limit s pre s1 m st a b : Document limit s (a ++ b) ->
  Reads limit s pre s1 m st a -> Run limit (map snd st) b [].
Proof.
  intros D R. apply reads_run in D. apply reads_run in R.
  destruct (run_split _ _ _ _ _ D) as (n1 & R1 & R2).
  now rewrite (run_det _ _ _ _ R _ R1).
Qed.

Lemma reads_raw_mode limit s pre s1 m st a t at' :
  Reads limit s pre s1 m st (a ++ [OpeningTag t at']) -> forall r, In r RawNames -> SameName (id_str t) r ->
  m = Some r.
Proof.
  intros R r Hr Hs. inversion R as [X|? slice ? ? ? ? ? evs ev ? ? Hi ? X1 X2 X3 X4 X5]; subst; [now destruct a|].
  apply app_inj_tail in X5. destruct X5 as [_ ->].
  inversion Hi as [? ? ? ? Hsp Ha|]; subst. cbn [After] in Ha.
  destruct m as [u|].
  - f_equal. destruct Ha as [Hu Hsu].
    apply raw_unique; auto. eapply same_name_trans; [apply same_name_sym; exact Hsu|exact Hs].
  - exfalso. eapply Ha; eauto.
Qed.

Lemma raw_opaque limit s a t at' b : Document limit s (a ++ OpeningTag t at' :: b) ->
  RawName (id_str t) ->
  exists c t' b' pre rest m st,
    b = RawData (raw c) :: ClosingTag t' :: b' /\ s = pre ++ c ++ rest /\
    Reads limit s pre (c ++ rest) m st (a ++ [OpeningTag t at']) /\
    EndsRaw (id_str t) rest /\
    (forall p q, c = p ++ q -> q <> [] -> ~ EndsRaw (id_str t) (q ++ rest)).
Proof.
  intros H (r & Hr & Hs). replace (a ++ OpeningTag t at' :: b) with ((a ++ [OpeningTag t at']) ++ b) in H
    by (rewrite <- app_assoc; reflexivity).
  destruct (document_split _ _ _ _ H) as (pre & s1 & m & st & E & R & L).
  pose proof (reads_raw_mode _ _ _ _ _ _ _ _ _ R r Hr Hs) as ->.
  pose proof (reads_mode _ _ _ _ _ _ _ R) as [_ Hst].
  pose proof (reads_rest _ _ _ _ _ _ _ _ H R) as HR.
  assert (Eq : forall x, EndsRaw r x <-> EndsRaw (id_str t) x).
  { intros x. split; intros (sl & rs & n & -> & He & Hn); exists sl, rs, n; split; auto; split; auto.
    - eapply same_name_trans; [exact Hn|]. now apply same_name_sym.
    - eapply same_name_trans; eauto. }
  destruct st as [|[p0 n0] st]; [congruence|]. cbn [map snd] in HR.
  inversion L as [|? slice rest ev m' evs' Hne Hi HL']; subst; [inversion HR|].
  inversion Hi as [|? ? ? Hend Hmin]; subst.
  destruct Hend as [->|Hend].
  { inversion HL' as [|? sl0 rs0 ? ? ? Hne0 ? ? E0]; subst; [|congruence].
    inversion HR as [| | |? ? ? ? _ HR2]; subst. inversion HR2. }
  pose proof Hend as (sl & rs & n & -> & He & Hn).
  destruct (lex_end_tag _ _ _ _ He HL') as [b' ->].
  exists slice, (name n), b', pre, (sl ++ rs), (Some r), ((p0, n0) :: st).
  split; [reflexivity|]. split; [reflexivity|]. split; [exact R|]. split; [now apply Eq|].
  intros p q Hpq Hq X. apply Eq in X. eapply Hmin; eauto.
Qed.
Lemma raw_only limit s a c b : Document limit s (a ++ RawData c :: b) ->
  exists a' t at', a = a' ++ [OpeningTag t at'] /\ RawName (id_str t).
Proof.
  intros H. destruct (document_split _ _ _ _ H) as (pre & s1 & m & st & E & R & L).
  inversion L as [|? slice rest ev m' evs' Hne Hi HL']; subst.
  inversion Hi as [? ? ? ? Hsp|]; subst; [inversion Hsp|].
  inversion R as [X|? slice0 ? m0 ? ? ? evs ev HR0 Hne0 Hi0 Hn0]; subst.
  inversion Hi0 as [? ? ? ? Hsp Ha|]; subst.
  destruct ev; try discriminate Ha. cbn [After] in Ha. exists evs, tag, attrs. split; auto. now exists t.
Qed.

(** ** Kinds of tags *)


Lemma void_exact limit s evs ev : Document limit s evs -> In ev evs ->
  match ev with
  | VoidTag t _ => VoidName (id_str t)
  | OpeningTag t _ | SelfClosedTag t _ => ~ VoidName (id_str t)
  | _ => True
  end.
Proof.
  intros H Hi. apply in_split in Hi. destruct Hi as (a & b & ->).
  destruct (document_split _ _ _ _ H) as (pre & s1 & m & st & E & R & L).
  inversion L as [|? slice rest ev0 m' evs' Hne Hi HL']; subst.
  inversion Hi as [? ? ? ? Hsp|]; subst; [|exact I]. destruct Hsp; auto; exact I.
Qed.
Lemma tag_nonempty slice rest n a slash : Tag slice n a slash -> slice ++ rest = [] -> False.
Proof. intros (r & (_ & _ & w & w' & s' & -> & _) & _). discriminate. Qed.
Lemma reads_lex_rest limit s pre s1 m st a b : Document limit s (a ++ b) ->
  Reads limit s pre s1 m st a -> Lex m s1 b.
Proof.
  intros D R. destruct (document_split _ _ _ _ D) as (pre' & s1' & m' & st' & E & R' & L).
  assert (X : pre = pre' /\ s1 = s1' /\ m = m'); [|destruct X as (-> & -> & ->); exact L].
  clear D L E. revert pre' s1' m' st' R'. induction R as [|pre slice rest m m' st st' evs ev HR IH Hne Hi Hn];
    intros pre2 s2 m2 st2 R2; inversion R2 as [X|pre3 slice3 rest3 m3 m3' st3 st3' evs3 ev3 HR3 Hne3 Hi3 Hn3 X1 X2 X3 X4 X5]; subst.
  - auto.
  - now destruct evs3.
  - now destruct evs.
  - apply app_inj_tail in X5. destruct X5 as [-> ->].
    destruct (IH pre3 (slice3 ++ s2) m3 st3) as (-> & Es & ->); auto.
    assert (Hg : good_mode m3). { apply reads_mode in HR. destruct m3; cbn; tauto. }
    pose proof (item_complete [] _ _ _ _ _ Hg Hi) as P1. pose proof (item_complete [] _ _ _ _ _ Hg Hi3) as P2.
    rewrite Es in P1. rewrite P1 in P2. apply item_ok_inj in P2. destruct P2 as (_ & -> & ->).
    apply app_inv_tail in Es. subst slice3. auto.
Qed.
Lemma tag_kind limit s pre slice rest st evs n a slash b :
  Document limit s (evs ++ b) ->
  Reads limit s pre (slice ++ rest) None st evs -> Tag slice n a slash ->
  exists ev b', b = ev :: b' /\ TagEvent n a slash ev.
Proof.
  intros D R T. pose proof (reads_lex_rest _ _ _ _ _ _ _ _ D R) as L.
  assert (V : ValidName n). { destruct T as (r & (_ & _ & w & w' & s' & _ & _ & Hn & _) & _). apply Hn. }
  destruct (tag_event_item slice rest n a slash T) as (m & Hi & _).
  destruct (lex_item None _ _ _ _ _ I (fun E => tag_nonempty _ _ _ _ _ T E) Hi L) as (b' & -> & _).
  exists (tag_event n a slash), b'. split; auto. unfold TagEvent, tag_event.
  destruct (is_void_tag n) eqn:Ev.
  - apply is_void_spec in Ev; auto.
  - apply is_void_false in Ev; auto. destruct slash; auto.
Qed.
Lemma tag_kind_det n a slash ev ev' : TagEvent n a slash ev -> TagEvent n a slash ev' -> ev = ev'.
Proof.
  intros [(H & ->)|[(H & E & ->)|(H & E & ->)]] [(H' & ->)|[(H' & E' & ->)|(H' & E' & ->)]];
    auto; try contradiction; congruence.
Qed.
