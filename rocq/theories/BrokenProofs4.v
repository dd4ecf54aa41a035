(** Proofs for C71: elements that last until the end of the events. *)
From Coq Require Import String ZArith List Bool Lia.
From stdpp Require Import gmap.
From Verif Require Import Text Event Input Parse Selector Machine Template StreamBase.
From Verif Require Import SpecText SpecAttr SpecParse SpecTree SpecTransform SpecOps SpecLaws SpecSelectLaws SpecLocal SpecBroken.
From Verif Require Import TextProofs AttrProofs AttrProofs2 Trace TraceProofs StreamProofs StreamProofs2 StreamProofs3.
From Verif Require Import PipelineProofs TreeProofs MiscProofs.
From Verif Require Import ErrorProofs SelectionProofs OpProofs LawProofs LawProofs2 LawProofs3 SelectLawProofs LocalProofs.
From Verif Require Import BrokenProofs BrokenProofs2.
Local Open Scope nat_scope.

(** ** Streams that have no cells and stay ended *)

Definition Says (s s' : strm) (r : stream_result) : Prop :=
  forall H, Ev (fun m => ne (run m) H s) H (s', r).
Inductive Pure : strm -> list event -> Prop :=
| Pure_noop s s' evs : Says s s' (inl (Some Noop)) -> Pure s' evs -> Pure s evs
| Pure_event s s' ev evs : Says s s' (inl (Some ev)) -> ev <> Noop -> Pure s' evs -> Pure s (ev :: evs)
| Pure_end s s' : Says s s' (inl None) -> Says s' s' (inl None) -> Pure s [].

Lemma pure_strm elem s evs h : Pure s evs -> Strm elem anything None s evs h.
Proof.
  induction 1 as [s s' evs H Hp IH|s s' ev evs H Hn Hp IH|s s' H H'];
    (constructor; [intros; apply post_anything|]); intros hf Hd; exists s', h;
    eexists; (split; [apply H|split; [exact Hd|]]).
  - now apply After_noop.
  - eapply After_event; eauto.
  - apply After_end; auto. apply post_anything.
Qed.

Lemma pure_sk s evs : Pure s evs -> exists s',
  (forall H, Ev (fun m => sk (run m) H s) H (s', inl (match evs with [] => None | ev :: _ => Some ev end))) /\
  match evs with [] => Says s' s' (inl None) | ev :: evs => ev <> Noop /\ Pure s' evs end.
Proof.
  induction 1 as [s s' evs H Hp IH|s s' ev evs H Hn Hp IH|s s' H H'].
  - destruct IH as (s2 & IH & X). exists s2. split; [|exact X]. intros h.
    exact (sk_noop _ _ _ _ (h, (s2, _)) (H h) (IH h)).
  - exists s'. split; [|auto]. intros h. apply sk_ret; [congruence|apply H].
  - exists s'. split; [|auto]. intros h. apply sk_ret; [congruence|apply H].
Qed.

Lemma pure_template evs : ~ In Noop evs -> Pure (STemplate evs 0) evs.
Proof.
  intros Hn. change (STemplate evs 0) with (STemplate ([] ++ evs) (length (@nil event))).
  generalize (@nil event). induction evs as [|ev evs IH]; intros pre.
  - apply Pure_end with (STemplate (pre ++ []) (length pre)); intros H; apply ne_intro; exists 0; intros m _;
      cbn [ne_body]; rewrite app_nil_r;
      (assert (nth_error pre (length pre) = None) as -> by (apply nth_error_None; lia)); reflexivity.
  - apply Pure_event with (STemplate (pre ++ ev :: evs) (S (length pre))).
    + intros H. apply ne_intro. exists 0. intros m _. cbn [ne_body].
      rewrite nth_error_app2, Nat.sub_diag by lia. reflexivity.
    + intros ->. apply Hn. now left.
    + replace (pre ++ ev :: evs) with ((pre ++ [ev]) ++ evs) by now rewrite <- app_assoc.
      replace (S (length pre)) with (length (pre ++ [ev])) by (rewrite app_length; simpl; lia).
      apply IH. intros Hin. apply Hn. now right.
Qed.
Lemma pure_user evs : Pure (SUser evs None) (strip_noops evs).
Proof.
  induction evs as [|ev evs IH].
  - apply Pure_end with (SUser [] None); intros H; ne_now.
  - unfold strip_noops in *. cbn [List.filter].
    destruct ev; cbn; try (eapply Pure_event; [intros H; ne_now|discriminate|exact IH]).
    eapply Pure_noop; [intros H; ne_now|exact IH].
Qed.
Lemma pure_emit s evs : Pure s evs -> Pure (SFallible (Some (FEmit s))) evs.
Proof.
  induction 1 as [s s' evs H Hp IH|s s' ev evs H Hn Hp IH|s s' H H'].
  - eapply Pure_noop; [|exact IH]. intros h. pose proof (H h) as E. ne_by E.
  - eapply Pure_event; [|exact Hn|exact IH]. intros h. pose proof (H h) as E. ne_by E.
  - apply Pure_end with (SFallible None); intros h; [|ne_now]. pose proof (H h) as E. ne_by E.
Qed.
Lemma pure_data d : Pure (SContent (Some d)) [Data d].
Proof.
  eapply Pure_event; [intros H; ne_now|discriminate|].
  apply Pure_end with (SContent None); intros H; ne_now.
Qed.
Lemma pure_content c evs : ContentGives c (inl evs) -> ~ In Noop evs -> Pure (into_stream c) evs.
Proof.
  remember (inl evs) as r eqn:E. intros H. revert evs E.
  induction H; intros evs0 E Hn; simpl; try discriminate E; try (injection E as <-).
  - now apply pure_template.
  - apply pure_data.
  - apply pure_data.
  - apply pure_data.
  - apply pure_data.
  - apply pure_user.
  - eapply Pure_noop; [intros h; ne_now|]. apply pure_emit. now apply IHContentGives.
Qed.
Lemma pure_second s evs : Pure s evs -> Pure (SCombine (Some (CmbSecond s))) evs.
Proof.
  revert s. induction evs as [|ev evs IH]; intros s Hp; destruct (pure_sk _ _ Hp) as (s' & E & X).
  - apply Pure_end with (SCombine None); intros h; [|ne_now]. pose proof (E h) as E'. ne_by E'.
  - destruct X as [Hn X]. eapply Pure_event; [|exact Hn|apply IH, X]. intros h. pose proof (E h) as E'. ne_by E'.
Qed.
Lemma pure_combine s1 s2 evs1 evs2 : Pure s1 evs1 -> Pure s2 evs2 ->
  Pure (SCombine (Some (CmbFirst s1 s2))) (evs1 ++ evs2).
Proof.
  intros H1 H2. revert s1 H1. induction evs1 as [|ev evs IH]; intros s Hp; destruct (pure_sk _ _ Hp) as (s' & E & X).
  - eapply Pure_noop; [|apply pure_second, H2]. intros h. pose proof (E h) as E'. ne_by E'.
  - destruct X as [Hn X]. eapply Pure_event; [|exact Hn|apply IH, X]. intros h. pose proof (E h) as E'. ne_by E'.
Qed.
Lemma dr_end s s' h : Ev (fun m => ne (run m) h s) h (s', inl None) ->
  Ev (fun m => dr (run m) h s) h (SRemove s', inl None).
Proof.
  intros [n Hn]. exists (S n). intros [|m] Hm; [lia|]. cbn [run dr]. unfold dr_body.
  rewrite Hn by lia. reflexivity.
Qed.
Lemma dr_more s s' ev h x : Ev (fun m => ne (run m) h s) h (s', inl (Some ev)) ->
  Ev (fun m => dr (run m) h s') h x -> Ev (fun m => dr (run m) h s) h x.
Proof.
  intros [n Hn] [k Hk]. exists (S (max n k)). intros [|m] Hm; [lia|]. cbn [run dr]. unfold dr_body.
  rewrite Hn by lia. cbn [obind]. apply Hk. lia.
Qed.
Lemma pure_remove s evs : Pure s evs -> Pure (SRemove s) [].
Proof.
  intros H. assert (exists s', Says s' s' (inl None) /\
    forall h, Ev (fun m => dr (run m) h s) h (SRemove s', inl None)) as (s' & He & E).
  { induction H as [s s' evs H Hp (s2 & He & E)|s s' ev evs H Hn Hp (s2 & He & E)|s s' H H'].
    - exists s2. split; [exact He|]. intros h. eapply dr_more; eauto.
    - exists s2. split; [exact He|]. intros h. eapply dr_more; eauto.
    - exists s'. split; [exact H'|]. intros h. now apply dr_end. }
  apply Pure_end with (SRemove s'); intros h; (eapply ev_S; [reflexivity|]).
  - apply E.
  - apply dr_end, He.
Qed.

Lemma offers_pure T q evs : WellNested T -> Offers T q evs -> ~ In Noop evs ->
  exists s, (forall p, build (q ++ p) ∅ (STemplate T 0) = build p ∅ s) /\ Pure s evs.
Proof.
  intros HT Ho Hn. pose proof (pure_template T (well_nested_no_noop T HT)) as Hp.
  inversion Ho as [Eq|c evs' Hc Eq|c evs' Hc Eq|c evs' Hc Eq]; subst.
  - exists (STemplate evs 0). auto.
  - exists (replace_new (STemplate T 0) (into_stream c)). split; [reflexivity|].
    rewrite <- (app_nil_r evs). apply pure_combine; [now apply pure_content|]. eapply pure_remove; eauto.
  - exists (prepend_new (STemplate T 0) (into_stream c)). split; [reflexivity|].
    apply pure_combine; auto. apply pure_content; auto. intros Hin. apply Hn, in_or_app. auto.
  - exists (append_new (STemplate T 0) (into_stream c)). split; [reflexivity|].
    apply pure_combine; auto. apply pure_content; auto. intros Hin. apply Hn, in_or_app. auto.
Qed.

(** ** The element *)

Lemma same_ident_eqb a b : ValidName (id_str b) -> SameName (id_str a) (id_str b) -> ident_eqb a b = true.
Proof.
  intros Hv E. unfold ident_eqb. rewrite identifier_eq_spec. pose proof (TextProofs.same_name_ascii _ _ E) as A.
  pose proof (valid_ascii _ Hv). split_and!; congruence.
Qed.
Lemma never_until t n evs : ValidName (id_str t) -> NeverClosed t n evs -> d_until t n evs = None.
Proof.
  intros Hv. induction 1 as [n|n u a evs Hu H IH|n u evs Hu H IH|n ev evs Hu H IH]; [reflexivity| | |];
    cbn [d_until]; unfold is_opening_tag_for, is_closing_tag_for; cbn [opening_tag_name].
  - apply same_ident_eqb in Hu; [|exact Hv]. rewrite Hu, IH. reflexivity.
  - apply same_ident_eqb in Hu; [|exact Hv]. rewrite Hu, IH. reflexivity.
  - assert (forall u, (u = u -> ~ SameName (id_str u) (id_str t)) -> ident_eqb u t = false) as Hf.
    { intros u Hx. destruct (ident_eqb u t) eqn:E; [|reflexivity]. apply ident_eqb_same in E. now destruct Hx. }
    destruct ev; cbn [opening_tag_name IsTagOf] in *; rewrite ?Hf, ?IH by auto; reflexivity.
Qed.

(** The source of an element, after the element. *)
Definition Left (l : loc) (evs : list event) : heap -> Prop := CellX l (fun s evs _ => Pure s evs) evs.
Lemma left_intro l s evs h : h !! l = None -> Pure s evs -> Left l evs (<[l := Cell s]> h).
Proof. exists s, h. auto. Qed.

Definition until_all (tag : ident) (level : nat) (evs : list event) : list event * list event :=
  match d_until tag level evs with Some x => x | None => (evs, []) end.
Lemma until_all_cons tag level ev evs : exists level',
  (level' = None /\ is_opening_tag_for ev tag = false /\ is_closing_tag_for ev tag = true /\ level = 0 /\
     until_all tag level (ev :: evs) = ([ev], evs)) \/
  exists n, level' = Some n /\
    (if is_opening_tag_for ev tag then n = S level
     else if is_closing_tag_for ev tag then level = S n else n = level) /\
    until_all tag level (ev :: evs) = (ev :: fst (until_all tag n evs), snd (until_all tag n evs)).
Proof.
  unfold until_all. cbn [d_until].
  destruct (is_opening_tag_for ev tag); [|destruct (is_closing_tag_for ev tag)].
  - exists (Some (S level)). right. exists (S level). split_and!; auto. now destruct (d_until tag (S level) evs) as [[]|].
  - destruct level as [|level].
    + exists None. left. auto.
    + exists (Some level). right. exists level. split_and!; auto. now destruct (d_until tag level evs) as [[]|].
  - exists (Some level). right. exists level. split_and!; auto. now destruct (d_until tag level evs) as [[]|].
Qed.

Lemma says_step h s s' r : Says s s' r -> StepF NE h s (fun s1 h1 r1 => s1 = s' /\ h1 = h /\ r1 = r).
Proof. intros H hf Hd. exists s', h, r. auto. Qed.
Lemma strm_dead Q h : Post Q h -> Strm true Q None (SSingle None) [] h.
Proof. intros H. apply (strm_finish _ _ _ (SSingle None)); [intros; ne_now|exact H]. Qed.

(** An element ends with its closing tag or where its source ends; then the source stays
    ended. *)
Lemma strm_until_pure s evs h l tag : h !! l = None -> Pure s evs -> forall level,
  Strm true (Left l (snd (until_all tag level evs))) None
    (SSingle (Some (SEUntilClose tag (SShared l) level))) (fst (until_all tag level evs)) (<[l := Cell s]> h).
Proof.
  intros Hl Hs.
  induction Hs as [s s' evs H Hp IH|s s' ev evs H Hn Hp IH|s s' H H']; intros level.
  - constructor.
    { intros _ _ E. destruct evs as [|ev evs].
      - apply post_intro, left_intro; auto. eapply Pure_noop; eauto.
      - destruct (until_all_cons tag level ev evs) as (? & [(_ & _ & _ & _ & X)|(n & _ & _ & X)]);
          rewrite X in E; discriminate E. }
    intros hf Hd.
    destruct (shared_step _ _ _ _ Hl (says_step h _ _ _ H) hf Hd) as (s2 & h' & r & E & Hd' & -> & s1 & h1 & -> & Hl1 & -> & -> & ->).
    eexists _, _, _. split; [ne_by E|split; [exact Hd'|]]. apply After_noop. auto.
  - constructor.
    { intros _ _ E.
      destruct (until_all_cons tag level ev evs) as (? & [(_ & _ & _ & _ & X)|(n & _ & _ & X)]);
          rewrite X in E; discriminate E. }
    intros hf Hd.
    destruct (shared_step _ _ _ _ Hl (says_step h _ _ _ H) hf Hd) as (s2 & h' & r & E & Hd' & -> & s1 & h1 & -> & Hl1 & -> & -> & ->).
    destruct (until_all_cons tag level ev evs) as (? & [(_ & Eo & Ec & -> & X)|(n & _ & Hlev & X)]); rewrite X; cbn [fst snd].
    + exists (SSingle None), (<[l := Cell s']> h), (inl (Some ev)). split; [|split; [exact Hd'|]].
      * destruct E as [n Hk]. apply ne_intro. exists n. intros m Hm. cbn [ne_body]. unfold on_ok.
        rewrite Hk by auto. cbn [obind]. rewrite Eo, Ec. reflexivity.
      * eapply After_event; [reflexivity|exact Hn|]. apply strm_dead, post_intro. now apply left_intro.
    + exists (SSingle (Some (SEUntilClose tag (SShared l) n))), (<[l := Cell s']> h), (inl (Some ev)).
      split; [|split; [exact Hd'|]].
      * destruct E as [k Hk]. apply ne_intro. exists k. intros m Hm. cbn [ne_body]. unfold on_ok.
        rewrite Hk by auto. cbn [obind]. destruct (is_opening_tag_for ev tag); [now subst|].
        destruct (is_closing_tag_for ev tag); now subst.
      * eapply After_event; [reflexivity|exact Hn|]. apply IH.
  - constructor.
    { intros _ _ _. apply post_intro, left_intro; auto. eapply Pure_end; eauto. }
    intros hf Hd.
    destruct (shared_step _ _ _ _ Hl (says_step h _ _ _ H) hf Hd) as (s2 & h' & r & E & Hd' & -> & s1 & h1 & -> & Hl1 & -> & -> & ->).
    eexists _, _, _. split; [ne_by E|split; [exact Hd'|]]. apply After_end; auto.
    apply post_intro, left_intro; auto. eapply Pure_end; eauto.
Qed.

Lemma strm_single_pure s ev rest h l el rest' : h !! l = None -> Pure s rest -> element_tag_start ev <> None ->
  (match ev with
   | OpeningTag t _ => el = ev :: fst (until_all t 0 rest) /\ rest' = snd (until_all t 0 rest)
   | _ => el = [ev] /\ rest' = rest
   end) ->
  Strm true (Left l rest') None (SSingle (Some (SEStart ev (SShared l)))) el (<[l := Cell s]> h).
Proof.
  intros Hl Hs He Hel.
  destruct ev; simpl in He; try (now destruct He); destruct Hel as [-> ->];
    (constructor; [discriminate|]); intros hf Hd; eexists _, _, _;
    (split; [ne_now|split; [exact Hd|]]); (eapply After_event; [reflexivity|discriminate|]).
  - now apply strm_until_pure.
  - apply strm_dead, post_intro. now apply left_intro.
  - apply strm_dead, post_intro. now apply left_intro.
Qed.

(** ** Selections *)

Lemma pure_shared_sk s evs h l : h !! l = None -> Pure s evs ->
  StepF SK (<[l := Cell s]> h) (SShared l) (fun s' h' r => s' = SShared l /\
    exists s1, h' = <[l := Cell s1]> h /\
      match evs with
      | [] => r = inl None /\ Says s1 s1 (inl None)
      | ev :: evs => r = inl (Some ev) /\ ev <> Noop /\ Pure s1 evs
      end).
Proof.
  intros Hl Hs. induction Hs as [s s' evs H Hp IH|s s' ev evs H Hn Hp IH|s s' H H']; intros hf Hd;
    destruct (shared_step _ _ _ _ Hl (says_step h _ _ _ H) hf Hd) as (s2 & h' & r & E & Hd' & -> & s1 & h1 & -> & Hl1 & -> & -> & ->).
  - destruct (IH hf Hd') as (s3 & h3 & r3 & E3 & Hd3 & HK). exists s3, h3, r3. split; [|auto].
    exact (sk_noop _ _ _ _ (hf ∪ h3, (s3, r3)) E E3).
  - exists (SShared l), (<[l := Cell s']> h), (inl (Some ev)). split; [apply sk_ret; [congruence|exact E]|].
    split; [exact Hd'|]. split; [reflexivity|]. exists s'. auto.
  - exists (SShared l), (<[l := Cell s']> h), (inl None). split; [apply sk_ret; [congruence|exact E]|].
    split; [exact Hd'|]. split; [reflexivity|]. exists s'. auto.
Qed.

Lemma single_all ev A B el rest :
  element_tag_start ev <> None -> d_single ev (A ++ B) None = ((el, None), rest) ->
  (forall tag a, ev = OpeningTag tag a -> d_until tag 0 (A ++ B) <> None) ->
  match ev with
  | OpeningTag t _ => el = ev :: fst (until_all t 0 (A ++ B)) /\ rest = snd (until_all t 0 (A ++ B))
  | _ => el = [ev] /\ rest = A ++ B
  end.
Proof.
  intros He Ed Hu. destruct ev; simpl in He; try (now destruct He); simpl in Ed.
  - specialize (Hu _ _ eq_refl). unfold until_all. destruct (d_until tag 0 (A ++ B)) as [[x y]|]; [|now destruct Hu].
    injection Ed as <- <-. auto.
  - injection Ed as <- <-. auto.
  - injection Ed as <- <-. auto.
Qed.

Lemma pure_select_then m b g direct l B (f : nat -> trace) : ElementSelector m ->
  (forall k, Strict (g k) true /\ exists e', Builds (g k) (build (b k)) true e') ->
  (forall calls s h, h !! l = None -> Pure s B ->
     Strm false anything (snd (f calls)) (SSelect l m b calls direct (Some (SelScanning 0))) (fst (f calls))
       (<[l := Cell s]> h)) ->
  forall n s A h calls st,
  length A <= n -> h !! l = None -> Pure s (A ++ B) -> nest st A = Some [] ->
  let x := tapp (d_select n m g direct (length st) calls A None)
             (f (dcount n m direct (length st) calls A)) in
  Strm false anything (snd x) (SSelect l m b calls direct (Some (SelScanning (length st))))
    (fst x) (<[l := Cell s]> h).
Proof.
  intros Hm Hb HB. induction n as [|n IH]; intros s A h calls st Hlen Hl Hs Hn x; subst x.
  { destruct A; [|simpl in Hlen; lia]. simpl in Hn. injection Hn as ->.
    cbn [d_select dcount]. rewrite tapp_nil_l. now apply HB. }
  destruct A as [|ev0 A].
  { simpl in Hn. injection Hn as ->. cbn [d_select dcount]. rewrite tapp_nil_l. now apply HB. }
  constructor; [discriminate|]. intros hf Hd.
  destruct (pure_shared_sk _ _ _ _ Hl Hs hf Hd) as (s' & h' & r & E & Hd' & -> & s1 & -> & -> & E3 & Hs1).
  cbn [d_select dcount].
  destruct (include direct (length st) && matches m ev0) eqn:Em.
  - pose proof (proj1 (andb_true_iff _ _) Em) as [_ E0].
    destruct (closed_before m ev0 A st B None Hm E0 Hn)
      as (el & rest' & Ed & Ed2 & Happ & Hel & Hn' & Hgood & Hu).
    rewrite Ed. cbn [snd].
    pose proof (strm_single_pure s1 ev0 _ h l _ _ Hl Hs1 (Hm _ E0) (single_all _ _ _ _ _ (Hm _ E0) Ed2 Hu)) as Hsingle.
    destruct (Hb calls) as [Hstrict [e' Hbuild]].
    destruct (Hbuild _ _ _ _ _ Hsingle Hgood hf Hd') as (h2 & s2 & Eb & Hd2 & Hs2).
    exists (SSelect l m b (S calls) direct (Some (SelActive (length st) s2))), h2, (inl (Some Noop)).
    split; [|split; [exact Hd2|]].
    + destruct E as [k Hk]. apply ne_intro. exists k. intros j Hj. cbn [ne_body]. unfold on_ok.
      rewrite Hk by auto. cbn [obind]. rewrite Em, Eb. reflexivity.
    + apply After_noop. cbn [fst snd] in Hs2. rewrite tapp_assoc.
      set (k2 := dcount n m direct (length st) (S calls) rest').
      rewrite (surjective_pairing (g calls (el, None))).
      rewrite (surjective_pairing (tapp (d_select n m g direct (length st) (S calls) rest' None) _)).
      apply (strm_seq (fun s => SSelect l m b (S calls) direct (Some (SelActive (length st) s)))
                 (SSelect l m b (S calls) direct (Some (SelScanning (length st)))) e' (Left l (rest' ++ B))).
      * intros. now apply active_step.
      * exact Hs2.
      * intros Hnone hq (s3 & h3 & -> & Hl3 & Hs3).
        apply (IH s3 rest' h3 (S calls) st); auto.
        apply (f_equal (@length event)) in Happ. rewrite app_length in Happ.
        simpl in Happ, Hlen. destruct el; [now destruct Hel|]. simpl in Happ. lia.
      * discriminate.
  - simpl in Hn. destruct (nest1 st ev0) as [st1|] eqn:En; [|discriminate].
    pose proof (nest1_adjust _ _ _ En) as Ha. rewrite Ha.
    eexists _, _, (inl (Some ev0)).
    split; [eapply select_step; eauto|split; [exact Hd'|]].
    rewrite tapp_assoc.
    rewrite (surjective_pairing (tapp (d_select n m g direct (length st1) calls A None) _)).
    cbn [tapp fst snd]. eapply After_event; [reflexivity|exact E3|].
    apply (IH s1 A h calls st1); auto. simpl in Hlen. lia.
Qed.

Lemma pure_once_skip m p direct l B t ys :
  (forall s h, h !! l = None -> Pure s B ->
     Strm false anything t (SSelectOnce l (Some (SelOScanning m p direct 0))) ys (<[l := Cell s]> h)) ->
  forall A s h st, h !! l = None -> Pure s (A ++ B) -> nest st A = Some [] ->
  reach m direct (length st) A = false ->
  Strm false anything t (SSelectOnce l (Some (SelOScanning m p direct (length st)))) (A ++ ys) (<[l := Cell s]> h).
Proof.
  intros HB. induction A as [|ev0 A IH]; intros s h st Hl Hs Hn Hr.
  - simpl in Hn. injection Hn as ->. now apply HB.
  - constructor; [discriminate|]. intros hf Hd.
    destruct (pure_shared_sk _ _ _ _ Hl Hs hf Hd) as (s' & h' & r & E & Hd' & -> & s1 & -> & -> & E3 & Hs1).
    cbn [reach] in Hr. destruct (include direct (length st) && matches m ev0) eqn:Em; [discriminate|].
    simpl in Hn. destruct (nest1 st ev0) as [st1|] eqn:En; [|discriminate].
    pose proof (nest1_adjust _ _ _ En) as Ha. rewrite Ha in Hr.
    eexists _, _, (inl (Some ev0)).
    split; [|split; [exact Hd'|]].
    + destruct E as [k Hk]. apply ne_intro. exists k. intros j Hj. cbn [ne_body]. unfold on_ok.
      rewrite Hk by auto. cbn [obind]. rewrite Em, Ha. reflexivity.
    + cbn [app]. eapply After_event; [reflexivity|exact E3|]. apply IH; auto.
Qed.

Lemma select_over m b direct l calls h : Left l [] h ->
  Strm false anything None (SSelect l m b calls direct (Some (SelScanning 0))) [] h.
Proof.
  intros (s & h1 & -> & Hl & Hp). constructor; [discriminate|]. intros hf Hd.
  destruct (pure_shared_sk _ _ _ _ Hl Hp hf Hd) as (s' & h' & r & E & Hd' & -> & s1 & -> & -> & Hs1).
  eexists (SSelect l m b calls direct None), _, (inl None). split; [|split; [exact Hd'|]].
  - destruct E as [k Hk]. apply ne_intro. exists k. intros j Hj. cbn [ne_body]. unfold on_ok.
    rewrite Hk by auto. reflexivity.
  - apply After_end; auto. apply post_anything.
Qed.
Lemma once_over l h : Left l [] h -> Strm false anything None (SSelectOnce l (Some SelOPassthrough)) [] h.
Proof.
  intros (s & h1 & -> & Hl & Hp). apply (strm_passthrough false); [exact Hl|]. now apply pure_strm.
Qed.

(** What the builder makes of the element that lasts until the end. *)
Definition out_trace (p : pipeline) (el : list event) : trace :=
  match p with
  | [ORemove] => ([], None)
  | [OReplace c] => tapp (d_content c) ([], None)
  | [OPrepend c] => tapp (d_content c) (el, None)
  | [OAppend c] => tapp (el, None) (d_content c)
  | _ => (el, None)
  end.
Lemma outside_outcome el p r : Outside el p r -> r = outcome (out_trace p el).
Proof.
  intros [| |c r' Hc|c evs Hc|c evs Hc]; cbn [out_trace]; try reflexivity;
    apply content_gives_det in Hc; rewrite outcome_tapp, <- Hc; try reflexivity.
  destruct r'; simpl; [now rewrite app_nil_r|reflexivity].
Qed.
Lemma build_outside el p r Q s h : Outside el p r -> WellP p -> Strm true Q None s el h ->
  exists e s', (forall H, build p H s = Done H s') /\
    Strm e Q (snd (out_trace p el)) s' (fst (out_trace p el)) h.
Proof.
  intros Ho Hw Hs. destruct Ho as [| |c r Hc|c evs Hc|c evs Hc]; cbn [out_trace].
  - exists true, s. auto.
  - exists false, (SRemove s). split; [reflexivity|]. now apply strm_remove in Hs.
  - apply wellp_cons in Hw as [Hw _]. pose proof (well_args _ Hw) as Hargs.
    exists false, (replace_new s (into_stream c)). split; [reflexivity|].
    apply (strm_replace _ _ _ _ _ _ c) in Hs; [exact Hs|]. now apply content_no_noop.
  - apply wellp_cons in Hw as [Hw _]. pose proof (well_args _ Hw) as Hargs.
    exists false, (prepend_new s (into_stream c)). split; [reflexivity|].
    apply (strm_prepend _ _ _ _ _ _ c) in Hs; [exact Hs|]. now apply content_no_noop.
  - apply wellp_cons in Hw as [Hw _]. pose proof (well_args _ Hw) as Hargs.
    exists false, (append_new s (into_stream c)). split; [reflexivity|].
    apply (strm_append _ _ _ _ _ _ c) in Hs; [exact Hs|]. now apply content_no_noop.
Qed.

Lemma tapp_nil_r x : tapp x ([], None) = x.
Proof. destruct x as [xe [ex|]]; [reflexivity|]. unfold tapp. simpl. now rewrite app_nil_r. Qed.

Lemma select_lasts m b direct l calls r t a rest s h : Outside (OpeningTag t a :: rest) (b calls) r ->
  WellP (b calls) -> matches m (OpeningTag t a) = true -> d_until t 0 rest = None ->
  h !! l = None -> Pure s (OpeningTag t a :: rest) ->
  let y := out_trace (b calls) (OpeningTag t a :: rest) in
  Strm false anything (snd y) (SSelect l m b calls direct (Some (SelScanning 0))) (fst y) (<[l := Cell s]> h).
Proof.
  intros Ho Hw Hm Hu Hl Hp y. constructor; [discriminate|]. intros hf Hd.
  destruct (pure_shared_sk _ _ _ _ Hl Hp hf Hd) as (s' & h' & r' & E & Hd' & -> & s1 & -> & -> & _ & Hs1).
  assert (Strm true (Left l []) None (SSingle (Some (SEStart (OpeningTag t a) (SShared l))))
            (OpeningTag t a :: rest) (<[l := Cell s1]> h)) as Hsingle.
  { apply (strm_single_pure s1 _ rest); auto. unfold until_all. rewrite Hu. auto. }
  destruct (build_outside _ _ _ _ _ _ Ho Hw Hsingle) as (e & s2 & Eb & Hs2). fold y in Hs2.
  exists (SSelect l m b (S calls) direct (Some (SelActive 0 s2))), (<[l := Cell s1]> h), (inl (Some Noop)).
  split; [|split; [exact Hd'|]].
  - destruct E as [k Hk]. apply ne_intro. exists k. intros j Hj. cbn [ne_body]. unfold on_ok.
    rewrite Hk by auto. cbn [obind].
    assert (include direct 0 && matches m (OpeningTag t a) = true) as -> by (rewrite Hm; now destruct direct).
    rewrite Eb. reflexivity.
  - apply After_noop. rewrite <- (tapp_nil_r y), (surjective_pairing y).
    apply (strm_seq (fun s => SSelect l m b (S calls) direct (Some (SelActive 0 s)))
               (SSelect l m b (S calls) direct (Some (SelScanning 0))) e (Left l [])).
    + intros. now apply active_step.
    + exact Hs2.
    + intros _ hq Hq. now apply select_over.
    + discriminate.
Qed.
Lemma once_lasts m p direct l r t a rest s h : Outside (OpeningTag t a :: rest) p r ->
  WellP p -> matches m (OpeningTag t a) = true -> d_until t 0 rest = None ->
  h !! l = None -> Pure s (OpeningTag t a :: rest) ->
  let y := out_trace p (OpeningTag t a :: rest) in
  Strm false anything (snd y) (SSelectOnce l (Some (SelOScanning m p direct 0))) (fst y) (<[l := Cell s]> h).
Proof.
  intros Ho Hw Hm Hu Hl Hp y. constructor; [discriminate|]. intros hf Hd.
  destruct (pure_shared_sk _ _ _ _ Hl Hp hf Hd) as (s' & h' & r' & E & Hd' & -> & s1 & -> & -> & _ & Hs1).
  assert (Strm true (Left l []) None (SSingle (Some (SEStart (OpeningTag t a) (SShared l))))
            (OpeningTag t a :: rest) (<[l := Cell s1]> h)) as Hsingle.
  { apply (strm_single_pure s1 _ rest); auto. unfold until_all. rewrite Hu. auto. }
  destruct (build_outside _ _ _ _ _ _ Ho Hw Hsingle) as (e & s2 & Eb & Hs2). fold y in Hs2.
  exists (SSelectOnce l (Some (SelOActive s2))), (<[l := Cell s1]> h), (inl (Some Noop)).
  split; [|split; [exact Hd'|]].
  - destruct E as [k Hk]. apply ne_intro. exists k. intros j Hj. cbn [ne_body]. unfold on_ok.
    rewrite Hk by auto. cbn [obind].
    assert (include direct 0 && matches m (OpeningTag t a) = true) as -> by (rewrite Hm; now destruct direct).
    rewrite Eb. reflexivity.
  - apply After_noop. rewrite <- (tapp_nil_r y), (surjective_pairing y).
    apply (strm_seq (fun s => SSelectOnce l (Some (SelOActive s)))
               (SSelectOnce l (Some SelOPassthrough)) e (Left l [])).
    + intros. now apply once_active_step.
    + exact Hs2.
    + intros _ hq Hq. now apply once_over.
    + discriminate.
Qed.

Lemma pure_gives_select T q evs direct m b t ys : WellNested T -> Offers T q evs -> ~ In Noop evs ->
  (forall l s, Pure s evs ->
     Strm false anything t (SSelect l m b 0 direct (Some (SelScanning 0))) ys (<[l := Cell s]> ∅)) ->
  Gives T (q ++ [OSelect direct (inl m) b]) (outcome (ys, t)).
Proof.
  intros HT Ho Hn H. destruct (offers_pure T q evs HT Ho Hn) as (s & Hb & Hs).
  eapply gives_strm; [rewrite Hb; reflexivity|]. apply strm_fallible, H, Hs.
Qed.
Lemma pure_gives_once T q evs direct m p t ys : WellNested T -> Offers T q evs -> ~ In Noop evs ->
  (forall l s, Pure s evs ->
     Strm false anything t (SSelectOnce l (Some (SelOScanning m p direct 0))) ys (<[l := Cell s]> ∅)) ->
  Gives T (q ++ [OSelectOnce direct (inl m) p]) (outcome (ys, t)).
Proof.
  intros HT Ho Hn H. destruct (offers_pure T q evs HT Ho Hn) as (s & Hb & Hs).
  eapply gives_strm; [rewrite Hb; reflexivity|]. apply strm_fallible, H, Hs.
Qed.

Lemma lasts_select T q direct m b F t a rest r0 r :
  WellNested T -> Offers T q (events F ++ OpeningTag t a :: rest) -> ~ In Noop rest ->
  Proper F -> ElementSelector m -> ElementBuilder b -> ValidArgs [OSelect direct (inl m) b] ->
  matches m (OpeningTag t a) = true -> ValidName (id_str t) -> NeverClosed t 0 rest ->
  Gives (events F) [OSelect direct (inl m) b] r0 ->
  (forall k, Outside (OpeningTag t a :: rest) (b k) r) ->
  Gives T (q ++ [OSelect direct (inl m) b]) (followed_by r0 r).
Proof.
  intros HT Hof Hn HF Hm Hb Hv Hma Ht Hc Hr Ho.
  apply never_until in Hc; [|exact Ht].
  assert (forall k, WellP (b k)) as Hw.
  { intros k. apply valid_args_well; eapply select_builder_valid; eauto. }
  assert (r0 = outcome (d_select (length (events F)) m (fun k => d_pipe (b k)) direct 0 0 (events F) None)) as ->.
  { refine (proj1 (gives_iff _ _ false false _ _ _ _) Hr); auto.
    - apply good_template, well_nested_events, HF.
    - apply typed_one. constructor. exact Hb. }
  set (k := dcount (length (events F)) m direct 0 0 (events F)).
  rewrite (outside_outcome _ _ _ (Ho k)), <- outcome_tapp, (surjective_pairing (tapp _ _)).
  apply (pure_gives_select T q _ direct m b _ _ HT Hof).
  { apply events_no_noop; auto. intros [X|X]; [discriminate|auto]. }
  intros l s Hs.
  apply (pure_select_then m b (fun k => d_pipe (b k)) direct l (OpeningTag t a :: rest)
           (fun k => out_trace (b k) (OpeningTag t a :: rest)) Hm) with (st := []); auto.
  - intros j. destruct (Hb j) as [e' He']. split.
    + eapply keeps_strict. eapply keeps_weaken. eapply keeps_pipe; eauto.
    + exists e'. now apply builds_pipe.
  - intros calls s0 h Hl Hp. eapply select_lasts; eauto.
  - now apply nest_events.
Qed.
Lemma lasts_once T q direct m p F t a rest rs out r :
  WellNested T -> Offers T q (events F ++ OpeningTag t a :: rest) -> ~ In Noop rest ->
  Proper F -> ElementSelector m -> ValidArgs [OSelectOnce direct (inl m) p] ->
  SelectsIn direct m F [] rs out ->
  matches m (OpeningTag t a) = true -> ValidName (id_str t) -> NeverClosed t 0 rest ->
  Outside (OpeningTag t a :: rest) p r ->
  Gives T (q ++ [OSelectOnce direct (inl m) p]) (followed_by (inl (events F)) r).
Proof.
  intros HT Hof Hn HF Hm Hv Hsel Hma Ht Hc Ho.
  apply never_until in Hc; [|exact Ht].
  assert (WellP p) as Hw by (apply valid_args_well; eapply once_builder_valid; eauto).
  rewrite (outside_outcome _ _ _ Ho).
  change (inl (events F)) with (outcome (events F, None)).
  rewrite <- outcome_tapp.
  assert (tapp (events F, None) (out_trace p (OpeningTag t a :: rest)) =
    (events F ++ fst (out_trace p (OpeningTag t a :: rest)), snd (out_trace p (OpeningTag t a :: rest)))) as ->.
  { now rewrite (surjective_pairing (out_trace p _)). }
  apply (pure_gives_once T q _ direct m p _ _ HT Hof).
  { apply events_no_noop; auto. intros [X|X]; [discriminate|auto]. }
  intros l s Hs.
  apply (pure_once_skip m p direct l (OpeningTag t a :: rest)) with (st := []); auto.
  - intros s0 h Hl Hp. eapply once_lasts; eauto.
  - now apply nest_events.
  - eapply (reach_selects_in direct m F []); eauto.
Qed.
