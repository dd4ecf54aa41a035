(** Proofs for C71: selections in templates whose tags do not match. *)
From Coq Require Import String ZArith List Bool Lia.
From stdpp Require Import gmap.
From Verif Require Import Text Event Input Parse Selector Machine Template StreamBase.
From Verif Require Import SpecText SpecAttr SpecParse SpecTree SpecTransform SpecOps SpecLaws SpecSelectLaws SpecLocal SpecBroken.
From Verif Require Import TextProofs AttrProofs AttrProofs2 Trace TraceProofs StreamProofs StreamProofs2 StreamProofs3.
From Verif Require Import PipelineProofs TreeProofs.
From Verif Require Import ErrorProofs SelectionProofs OpProofs LawProofs LawProofs2 LawProofs3 SelectLawProofs LocalProofs.
Local Open Scope nat_scope.

(** An element that is closed, in whatever stream. *)
Lemma strm_closed elem Q t s ev rest h l el rest' :
  h !! l = None -> Strm elem Q t s rest h ->
  element_tag_start ev <> None -> d_single ev rest t = ((el, None), rest') ->
  (forall tag a, ev = OpeningTag tag a -> d_until tag 0 rest <> None) ->
  Strm true (Rest l elem Q t rest') None (SSingle (Some (SEStart ev (SShared l)))) el (<[l := Cell s]> h).
Proof.
  intros Hl Hs He Ed Hu.
  assert (Post (Rest l elem Q t rest) (<[l := Cell s]> h)) as Hpost.
  { apply post_intro. exists s, h. auto. }
  destruct ev; simpl in He; try (now destruct He); simpl in Ed.
  - specialize (Hu _ _ eq_refl).
    pose proof (strm_until elem Q t s rest h l tag Hl Hs 0) as Hun.
    destruct (d_until tag 0 rest) as [[el0 rest0]|] eqn:E; [|now destruct Hu].
    injection Ed as <- <-. constructor; [discriminate|]. intros hf Hd.
    eexists _, _, _. split; [ne_now|split; [exact Hd|]].
    eapply After_event; [reflexivity|congruence|exact Hun].
  - injection Ed as <- <-. constructor; [discriminate|]. intros hf Hd.
    eexists _, _, _. split; [ne_now|split; [exact Hd|]].
    eapply After_event; [reflexivity|congruence|].
    apply (strm_finish _ _ _ (SSingle None)); [intros; ne_now|exact Hpost].
  - injection Ed as <- <-. constructor; [discriminate|]. intros hf Hd.
    eexists _, _, _. split; [ne_now|split; [exact Hd|]].
    eapply After_event; [reflexivity|congruence|].
    apply (strm_finish _ _ _ (SSingle None)); [intros; ne_now|exact Hpost].
Qed.

(** What a matching event begins is closed before a nested part of the stream ends. *)
Lemma closed_before m ev A st B t : ElementSelector m -> matches m ev = true ->
  nest st (ev :: A) = Some [] ->
  exists el rest, d_single ev A None = ((el, None), rest) /\ d_single ev (A ++ B) t = ((el, None), rest ++ B) /\
    el ++ rest = ev :: A /\ el <> [] /\ nest st rest = Some [] /\ Good true (el, None) /\
    (forall tag a, ev = OpeningTag tag a -> d_until tag 0 (A ++ B) <> None).
Proof.
  intros Hm E Hn. destruct (d_single ev A None) as [[el tel] rest] eqn:Ed.
  destruct (matched_single _ _ _ _ _ _ Hm E Hn Ed) as (E1 & E2 & E3). simpl in E1, E2. injection E1 as ->.
  pose proof (single_more _ _ _ _ _ _ B t Hm E Hn Ed) as Hmore.
  pose proof (single_good st ev A [] None Hn (fun _ => eq_refl)) as Hg. rewrite Ed in Hg. destruct Hg as [Hg _].
  exists el, rest. split_and!; auto.
  - intros ->. exact Hg.
  - intros tag a ->. simpl in Hn. destruct (valid_start tag a); [|discriminate].
    pose proof (until_nest tag st A [] [] Hn) as Hu. simpl in Hu.
    destruct (d_until tag 0 A) as [[e r]|] eqn:Eu.
    + now rewrite (until_more _ _ _ _ _ _ Eu).
    + destruct Hu as (i & _ & Hu). destruct i; discriminate Hu.
Qed.

Lemma select_step l m b calls direct level H H' s' ev level' :
  Ev (fun n => sk (run n) H (SShared l)) H' (s', inl (Some ev)) ->
  include direct level && matches m ev = false -> adjust level ev = inl level' ->
  Ev (fun n => ne (run n) H (SSelect l m b calls direct (Some (SelScanning level)))) H'
     (SSelect l m b calls direct (Some (SelScanning level')), inl (Some ev)).
Proof.
  intros [k Hk] Em Ha. apply ne_intro. exists k. intros j Hj. cbn [ne_body]. unfold on_ok.
  rewrite Hk by auto. cbn [obind]. now rewrite Em, Ha.
Qed.

(** How many matches there are in a nested part. *)
Fixpoint dcount (n : nat) (m : selector) (direct : bool) (level calls : nat) (A : list event) : nat :=
  match n with
  | O => calls
  | S n =>
      match A with
      | [] => calls
      | ev :: A =>
          if include direct level && matches m ev then
            dcount n m direct level (S calls) (snd (d_single ev A None))
          else
            match adjust level ev with
            | inl level => dcount n m direct level calls A
            | inr _ => calls
            end
      end
  end.

(** A nested part is passed; then the selection is at the remaining events, with what the
    selection makes of them for the number of calls made so far. *)
Lemma strm_select_then m b g direct l elem Q B (f : nat -> trace) :
  ElementSelector m ->
  (forall k, Strict (g k) true /\ exists e', Builds (g k) (build (b k)) true e') ->
  (forall calls s h, h !! l = None -> Strm elem Q None s B h ->
     Strm false Q (snd (f calls)) (SSelect l m b calls direct (Some (SelScanning 0))) (fst (f calls))
       (<[l := Cell s]> h)) ->
  forall n s A h calls st,
  length A <= n -> h !! l = None -> Strm elem Q None s (A ++ B) h ->
  nest st A = Some [] ->
  let x := tapp (d_select n m g direct (length st) calls A None)
             (f (dcount n m direct (length st) calls A)) in
  Strm false Q (snd x) (SSelect l m b calls direct (Some (SelScanning (length st))))
    (fst x) (<[l := Cell s]> h).
Proof.
  intros Hm Hb HB. induction n as [|n IH]; intros s A h calls st Hlen Hl Hs Hn x; subst x.
  { destruct A; [|simpl in Hlen; lia]. simpl in Hn. injection Hn as ->.
    cbn [d_select dcount]. rewrite tapp_nil_l. now apply HB. }
  destruct A as [|ev0 A].
  { simpl in Hn. injection Hn as ->. cbn [d_select dcount]. rewrite tapp_nil_l. now apply HB. }
  constructor; [discriminate|]. intros hf Hd.
  destruct (shared_sk _ _ _ _ _ _ _ Hl Hs hf Hd) as (s' & h' & r & E & Hd' & HA).
  destruct HA as [ev evs' E1 E3 X|E1 E3 X|err E1 E3]; try discriminate.
  destruct X as (-> & s1 & h1 & -> & Hl1 & Hs1).
  injection E1 as <- <-. cbn [d_select dcount].
  destruct (include direct (length st) && matches m ev0) eqn:Em.
  - pose proof (proj1 (andb_true_iff _ _) Em) as [_ E0].
    destruct (closed_before m ev0 A st B None Hm E0 Hn)
      as (el & rest' & Ed & Ed2 & Happ & Hel & Hn' & Hgood & Hu).
    rewrite Ed. cbn [snd].
    pose proof (strm_closed elem Q None s1 ev0 _ h1 l _ _ Hl1 Hs1 (Hm _ E0) Ed2 Hu) as Hsingle.
    destruct (Hb calls) as [Hstrict [e' Hbuild]].
    destruct (Hbuild _ _ _ _ _ Hsingle Hgood hf Hd') as (h2 & s2 & Eb & Hd2 & Hs2).
    exists (SSelect l m b (S calls) direct (Some (SelActive (length st) s2))), h2, (inl (Some Noop)).
    split; [|split; [exact Hd2|]].
    + destruct E as [k Hk]. apply ne_intro. exists k. intros j Hj. cbn [ne_body]. unfold on_ok.
      rewrite Hk by auto. cbn [obind]. rewrite Em, Eb. reflexivity.
    + apply After_noop. cbn [fst snd] in Hs2. rewrite tapp_assoc.
      set (k2 := dcount n m direct (length st) (S calls) rest').
      rewrite (surjective_pairing (g calls (el, None))).
      rewrite (surjective_pairing (tapp (d_select n m g direct (length st) (S calls) rest' None) _)).
      apply (strm_seq (fun s => SSelect l m b (S calls) direct (Some (SelActive (length st) s)))
                 (SSelect l m b (S calls) direct (Some (SelScanning (length st)))) e'
                 (CellX l (Strm elem Q None) (rest' ++ B))).
      * intros. now apply active_step.
      * exact Hs2.
      * intros Hnone hq (s3 & h3 & -> & Hl3 & Hs3).
        apply (IH s3 rest' h3 (S calls) st); auto.
        apply (f_equal (@length event)) in Happ. rewrite app_length in Happ.
        simpl in Happ, Hlen. destruct el; [now destruct Hel|]. simpl in Happ. lia.
      * discriminate.
  - simpl in Hn. destruct (nest1 st ev0) as [st1|] eqn:En; [|discriminate].
    pose proof (nest1_adjust _ _ _ En) as Ha. rewrite Ha.
    eexists _, _, (inl (Some ev0)).
    split; [eapply select_step; eauto|split; [exact Hd'|]].
    rewrite tapp_assoc.
    rewrite (surjective_pairing (tapp (d_select n m g direct (length st1) calls A None) _)).
    cbn [tapp fst snd]. eapply After_event; [reflexivity|exact E3|].
    apply (IH s1 A h1 calls st1); auto. simpl in Hlen. lia.
Qed.

Lemma strm_select_close m b direct l elem Q c rest calls s h : ElementSelector m ->
  h !! l = None -> Strm elem Q None s (ClosingTag c :: rest) h ->
  Strm false Q (Some (unexpected_close c)) (SSelect l m b calls direct (Some (SelScanning 0))) []
    (<[l := Cell s]> h).
Proof.
  intros Hm Hl Hs. constructor; [discriminate|]. intros hf Hd.
  destruct (shared_sk _ _ _ _ _ _ _ Hl Hs hf Hd) as (s' & h' & r & E & Hd' & HA).
  destruct HA as [ev evs' E1 E3 X|E1 E3 X|err E1 E3]; try discriminate.
  injection E1 as <- <-.
  exists (SSelect l m b calls direct None), h', (inr (unexpected_close c)).
  split; [|split; [exact Hd'|now apply After_err]].
  destruct E as [k Hk]. apply ne_intro. exists k. intros j Hj. cbn [ne_body]. unfold on_ok.
  rewrite Hk by auto. cbn [obind]. destruct (matches m (ClosingTag c)) eqn:Em.
  { now destruct (Hm _ Em). }
  rewrite andb_false_r. reflexivity.
Qed.

(** Whether the scan of [SelectOnce] finds a match. *)
Fixpoint reach (m : selector) (direct : bool) (level : nat) (A : list event) : bool :=
  match A with
  | [] => false
  | ev :: A =>
      if include direct level && matches m ev then true
      else match adjust level ev with inl level => reach m direct level A | inr _ => false end
  end.

(** Events that do not match are passed; then the selection is at the remaining ones. *)
Lemma strm_once_skip m p direct l elem Q B t ys :
  (forall s h, h !! l = None -> Strm elem Q None s B h ->
     Strm false Q t (SSelectOnce l (Some (SelOScanning m p direct 0))) ys (<[l := Cell s]> h)) ->
  forall A s h st, h !! l = None -> Strm elem Q None s (A ++ B) h -> nest st A = Some [] ->
  reach m direct (length st) A = false ->
  Strm false Q t (SSelectOnce l (Some (SelOScanning m p direct (length st)))) (A ++ ys) (<[l := Cell s]> h).
Proof.
  intros HB. induction A as [|ev0 A IH]; intros s h st Hl Hs Hn Hr.
  - simpl in Hn. injection Hn as ->. now apply HB.
  - constructor; [discriminate|]. intros hf Hd.
    destruct (shared_sk _ _ _ _ _ _ _ Hl Hs hf Hd) as (s' & h' & r & E & Hd' & HA).
    destruct HA as [ev evs' E1 E3 X|E1 E3 X|err E1 E3]; try discriminate.
    injection E1 as <- <-. destruct X as (-> & s1 & h1 & -> & Hl1 & Hs1).
    cbn [reach] in Hr. destruct (include direct (length st) && matches m ev0) eqn:Em; [discriminate|].
    simpl in Hn. destruct (nest1 st ev0) as [st1|] eqn:En; [|discriminate].
    pose proof (nest1_adjust _ _ _ En) as Ha. rewrite Ha in Hr.
    eexists _, _, (inl (Some ev0)).
    split; [|split; [exact Hd'|]].
    + destruct E as [k Hk]. apply ne_intro. exists k. intros j Hj. cbn [ne_body]. unfold on_ok.
      rewrite Hk by auto. cbn [obind]. rewrite Em, Ha. reflexivity.
    + cbn [app]. eapply After_event; [reflexivity|exact E3|]. apply IH; auto.
Qed.

(** Nothing matches before the closing tag. *)
Lemma strm_once_unexpected m p direct l elem Q c rest s A h : ElementSelector m ->
  h !! l = None -> Strm elem Q None s (A ++ ClosingTag c :: rest) h -> nest [] A = Some [] ->
  reach m direct 0 A = false ->
  Strm false Q (Some (unexpected_close c)) (SSelectOnce l (Some (SelOScanning m p direct 0)))
    A (<[l := Cell s]> h).
Proof.
  intros Hm Hl Hs Hn Hr. rewrite <- (app_nil_r A).
  apply (strm_once_skip m p direct l elem Q (ClosingTag c :: rest) _ []) with (st := []); auto.
  clear - Hm. intros s h Hl Hs. constructor; [discriminate|]. intros hf Hd.
  destruct (shared_sk _ _ _ _ _ _ _ Hl Hs hf Hd) as (s' & h' & r & E & Hd' & HA).
  destruct HA as [ev evs' E1 E3 X|E1 E3 X|err E1 E3]; try discriminate. injection E1 as <- <-.
  exists (SSelectOnce l None), h', (inr (unexpected_close c)).
  split; [|split; [exact Hd'|now apply After_err]].
  destruct E as [k Hk]. apply ne_intro. exists k. intros j Hj. cbn [ne_body]. unfold on_ok.
  rewrite Hk by auto. cbn [obind]. destruct (matches m (ClosingTag c)) eqn:Em.
  { now destruct (Hm _ Em). }
  rewrite andb_false_r. reflexivity.
Qed.

(** Something matches before it, whatever follows then. *)
Lemma strm_once_before m p g direct l elem Q e' B : 
  ElementSelector m -> Strict g true -> Builds g (build p) true e' ->
  forall A s h st, h !! l = None -> Strm elem Q None s (A ++ B) h -> nest st A = Some [] ->
  reach m direct (length st) A = true ->
  let x := tapp (d_select_once m g direct (length st) A None) (B, None) in
  Strm false Q (snd x) (SSelectOnce l (Some (SelOScanning m p direct (length st))))
    (fst x) (<[l := Cell s]> h).
Proof.
  intros Hm Hstrict Hbuild. induction A as [|ev0 A IH]; intros s h st Hl Hs Hn Hr x; subst x; [discriminate|].
  constructor; [discriminate|]. intros hf Hd.
  destruct (shared_sk _ _ _ _ _ _ _ Hl Hs hf Hd) as (s' & h' & r & E & Hd' & HA).
  destruct HA as [ev evs' E1 E3 X|E1 E3 X|err E1 E3]; try discriminate.
  injection E1 as <- <-. destruct X as (-> & s1 & h1 & -> & Hl1 & Hs1).
  cbn [reach d_select_once] in Hr |- *. destruct (include direct (length st) && matches m ev0) eqn:Em.
  - clear Hr. pose proof (proj1 (andb_true_iff _ _) Em) as [_ E0].
    destruct (closed_before m ev0 A st B None Hm E0 Hn)
      as (el & rest' & Ed & Ed2 & Happ & Hel & Hn' & Hgood & Hu).
    rewrite Ed.
    pose proof (strm_closed elem Q None s1 ev0 _ h1 l _ _ Hl1 Hs1 (Hm _ E0) Ed2 Hu) as Hsingle.
    destruct (Hbuild _ _ _ _ _ Hsingle Hgood hf Hd') as (h2 & s2 & Eb & Hd2 & Hs2).
    exists (SSelectOnce l (Some (SelOActive s2))), h2, (inl (Some Noop)).
    split; [|split; [exact Hd2|]].
    + destruct E as [k Hk]. apply ne_intro. exists k. intros j Hj. cbn [ne_body]. unfold on_ok.
      rewrite Hk by auto. cbn [obind]. rewrite Em, Eb. reflexivity.
    + apply After_noop. cbn [fst snd] in Hs2. rewrite tapp_assoc.
      change (tapp (rest', None) (B, None)) with (rest' ++ B, @None stream_error).
      rewrite (surjective_pairing (g (el, None))).
      apply (strm_seq (fun s => SSelectOnce l (Some (SelOActive s)))
               (SSelectOnce l (Some SelOPassthrough)) e' (CellX l (Strm elem Q None) (rest' ++ B))).
      * intros. now apply once_active_step.
      * exact Hs2.
      * intros Hnone hq (s3 & h3 & -> & Hl3 & Hs3). now apply (strm_passthrough elem).
      * discriminate.
  - simpl in Hn. destruct (nest1 st ev0) as [st1|] eqn:En; [|discriminate].
    pose proof (nest1_adjust _ _ _ En) as Ha. rewrite Ha in Hr |- *.
    eexists _, _, (inl (Some ev0)).
    split; [|split; [exact Hd'|]].
    + destruct E as [k Hk]. apply ne_intro. exists k. intros j Hj. cbn [ne_body]. unfold on_ok.
      rewrite Hk by auto. cbn [obind]. rewrite Em, Ha. reflexivity.
    + rewrite tapp_assoc.
      rewrite (surjective_pairing (tapp (d_select_once m g direct (length st1) A None) _)).
      cbn [tapp fst snd]. eapply After_event; [reflexivity|exact E3|]. apply (IH s1 h1 st1); auto.
Qed.

(** ** Transformations *)

Lemma gives_strm evs p Q e t ys h' s' :
  build p ∅ (STemplate evs 0) = Done h' s' -> Strm e Q t s' ys h' ->
  Gives evs p (outcome (ys, t)).
Proof.
  intros E Hs.
  destruct (strm_co _ _ _ _ _ _ Hs ∅ [] ltac:(apply map_disjoint_empty_l)) as (h2 & [n Hn] & _ & _).
  apply (ev_gives _ _ (∅ ∪ h2)). exists n. intros k Hk. unfold transform. rewrite E. cbn [obind].
  rewrite map_empty_union in Hn. rewrite Hn by auto. unfold outcome. cbn [fst snd]. destruct t; reflexivity.
Qed.

Lemma strm_events evs : ~ In Noop evs -> Strm false (fun _ => True) None (STemplate evs 0) evs ∅.
Proof.
  intros H. apply strm_template0; [now apply post_intro|]. unfold NoNoop. rewrite Forall_forall.
  intros ev Hin ->. now apply H, elem_of_list_In.
Qed.

Lemma no_noops evs : ~ In Noop evs -> NoNoop evs.
Proof.
  intros H. unfold NoNoop. rewrite Forall_forall. intros ev Hin ->. now apply H, elem_of_list_In.
Qed.
Lemma well_nested_no_noop T : WellNested T -> ~ In Noop T.
Proof.
  intros HT Hin. pose proof (good_no_noop false (T, None) (good_template _ HT)) as Hn.
  unfold NoNoop in Hn. rewrite Forall_forall in Hn. eapply Hn; [|reflexivity]. now apply elem_of_list_In.
Qed.

(** The stream that is offered. *)
Lemma offers_strm T q evs : WellNested T -> Offers T q evs -> ~ In Noop evs ->
  exists s, (forall p, build (q ++ p) ∅ (STemplate T 0) = build p ∅ s) /\
    Strm false (fun _ => True) None s evs ∅.
Proof.
  intros HT Ho Hn. pose proof (strm_events T (well_nested_no_noop T HT)) as Hs.
  inversion Ho as [Eq|c evs' Hc Eq|c evs' Hc Eq|c evs' Hc Eq]; subst.
  - exists (STemplate evs 0). auto.
  - apply content_gives_det in Hc. unfold outcome in Hc.
    destruct (d_content c) as [ce [err|]] eqn:E; [discriminate|]. injection Hc as ->. cbn [fst] in Hn.
    exists (replace_new (STemplate T 0) (into_stream c)). split; [reflexivity|].
    pose proof (strm_replace false _ None _ _ _ c Hs) as H. rewrite E in H. cbn in H.
    rewrite app_nil_r in H. apply H. now apply no_noops.
  - apply content_gives_det in Hc. unfold outcome in Hc.
    destruct (d_content c) as [ce [err|]] eqn:E; [discriminate|]. injection Hc as ->. cbn [fst] in Hn.
    exists (prepend_new (STemplate T 0) (into_stream c)). split; [reflexivity|].
    pose proof (strm_prepend false _ None _ _ _ c Hs) as H. rewrite E in H. cbn in H.
    apply H. apply no_noops. intros Hin. apply Hn, in_or_app. auto.
  - apply content_gives_det in Hc. unfold outcome in Hc.
    destruct (d_content c) as [ce [err|]] eqn:E; [discriminate|]. injection Hc as ->. cbn [fst] in Hn.
    exists (append_new (STemplate T 0) (into_stream c)). split; [reflexivity|].
    pose proof (strm_append false _ None _ _ _ c Hs) as H. rewrite E in H. cbn in H.
    apply H. apply no_noops. intros Hin. apply Hn, in_or_app. auto.
Qed.

Lemma gives_select T q evs direct m b t ys : WellNested T -> Offers T q evs -> ~ In Noop evs ->
  (forall l s, Strm false (fun _ => True) None s evs ∅ ->
     Strm false (fun _ => True) t (SSelect l m b 0 direct (Some (SelScanning 0))) ys (<[l := Cell s]> ∅)) ->
  Gives T (q ++ [OSelect direct (inl m) b]) (outcome (ys, t)).
Proof.
  intros HT Ho Hn H. destruct (offers_strm T q evs HT Ho Hn) as (s & Hb & Hs).
  eapply gives_strm; [rewrite Hb; reflexivity|]. apply strm_fallible, H, Hs.
Qed.
Lemma gives_select_once T q evs direct m p t ys : WellNested T -> Offers T q evs -> ~ In Noop evs ->
  (forall l s, Strm false (fun _ => True) None s evs ∅ ->
     Strm false (fun _ => True) t (SSelectOnce l (Some (SelOScanning m p direct 0))) ys (<[l := Cell s]> ∅)) ->
  Gives T (q ++ [OSelectOnce direct (inl m) p]) (outcome (ys, t)).
Proof.
  intros HT Ho Hn H. destruct (offers_strm T q evs HT Ho Hn) as (s & Hb & Hs).
  eapply gives_strm; [rewrite Hb; reflexivity|]. apply strm_fallible, H, Hs.
Qed.

Lemma outcome_tapp x y : outcome (tapp x y) = followed_by (outcome x) (outcome y).
Proof.
  destruct x as [xe [ex|]]; [reflexivity|]. destruct y as [ye [ey|]]; reflexivity.
Qed.

Lemma events_no_noop F evs : Proper F -> ~ In Noop evs -> ~ In Noop (events F ++ evs).
Proof.
  intros HF H Hin. apply in_app_or in Hin as [Hin|Hin]; [|now apply H].
  pose proof (good_no_noop false (events F, None) (good_template _ (well_nested_events _ HF))) as Hn.
  unfold NoNoop in Hn. rewrite Forall_forall in Hn. eapply Hn; [|reflexivity]. now apply elem_of_list_In.
Qed.

(** ** What is selected and what the scan finds *)

Lemma reach_leaf m direct level ev rest : ProperTree (Leaf ev) -> matches m ev = false ->
  reach m direct level (ev :: rest) = reach m direct level rest.
Proof.
  intros Hp Hm. inversion Hp; subst. cbn [reach]. rewrite Hm, andb_false_r. now rewrite adjust_leaf.
Qed.
Lemma reach_deep m : forall x, ProperTree x -> forall level rest,
  reach m true (S level) (tree_events x ++ rest) = reach m true (S level) rest.
Proof.
  apply (tree_rect' (fun x => ProperTree x -> forall level rest,
    reach m true (S level) (tree_events x ++ rest) = reach m true (S level) rest)).
  - intros ev Hp level rest. inversion Hp; subst. cbn [tree_events app reach include Nat.eqb andb].
    now rewrite adjust_leaf.
  - intros t a kids c IH Hp level rest.
    assert (Proper kids) as Hk by (inversion Hp; subst; auto). clear Hp.
    rewrite tree_events_elem. cbn [app reach include Nat.eqb andb adjust].
    rewrite <- app_assoc. cbn [app].
    assert (forall level rest, reach m true (S level) (events kids ++ rest) = reach m true (S level) rest) as Hkids.
    { clear level rest. induction kids as [|x kids IHk]; intros level rest; [reflexivity|].
      apply proper_cons in Hk as [Hx Hk]. rewrite events_cons, <- app_assoc, IH; simpl; auto.
      apply IHk; auto. intros y Hy. apply IH. now right. }
    rewrite Hkids. cbn [reach include Nat.eqb andb adjust]. reflexivity.
Qed.
Lemma reach_deep_forest m F level rest : Proper F ->
  reach m true (S level) (events F ++ rest) = reach m true (S level) rest.
Proof.
  induction F as [|x F IH]; intros H; [reflexivity|].
  apply proper_cons in H as [Hx HF]. rewrite events_cons, <- app_assoc, reach_deep, IH; auto.
Qed.
Lemma reach_start m direct x rest : include direct 0 = true -> matches m (start x) = true ->
  reach m direct 0 (tree_events x ++ rest) = true.
Proof.
  intros Hi Hm. destruct x as [ev|t a kids c].
  - cbn [tree_events app reach start] in *. now rewrite Hi, Hm.
  - rewrite tree_events_elem. cbn [app reach start] in *. now rewrite Hi, Hm.
Qed.

Definition some_of (xs : list tree) : bool := match xs with [] => false | _ => true end.

Lemma reach_selects m F xs rs out : ElementSelector m -> Selects m F xs rs out -> Proper F ->
  forall level rest, reach m false level (events F ++ rest) = some_of xs || reach m false level rest.
Proof.
  intros Hm. induction 1; intros HF level rest.
  - reflexivity.
  - apply proper_cons in HF as [Hx HF]. rewrite events_cons, <- app_assoc. cbn [some_of orb].
    destruct x as [ev|t a kids c].
    + cbn [tree_events app reach include start] in *. now rewrite H.
    + rewrite tree_events_elem. cbn [app reach include start] in *. now rewrite H.
  - apply proper_cons in HF as [Hx HF]. rewrite events_cons, <- app_assoc. cbn [tree_events app].
    rewrite reach_leaf; auto.
  - apply proper_cons in HF as [Hx HF].
    assert (Proper kids) as Hk by (inversion Hx; subst; auto).
    rewrite events_cons, <- app_assoc, tree_events_elem. cbn [app reach include andb]. rewrite H.
    cbn [adjust]. rewrite <- app_assoc. cbn [app]. rewrite IHSelects1 by auto.
    destruct xs1 as [|x1 xs1]; [|reflexivity]. cbn [some_of orb app reach include andb].
    destruct (matches m (ClosingTag c)) eqn:Ec; [now destruct (Hm _ Ec)|]. cbn [adjust]. auto.
Qed.
Lemma reach_selects_direct m F xs rs out : SelectsDirect m F xs rs out -> Proper F ->
  reach m true 0 (events F) = some_of xs.
Proof.
  induction 1; intros HF.
  - reflexivity.
  - rewrite events_cons. now apply reach_start.
  - apply proper_cons in HF as [Hx HF]. rewrite events_cons, <- IHSelectsDirect by auto.
    destruct x as [ev|t a kids c].
    + now apply reach_leaf.
    + assert (Proper kids) as Hk by (inversion Hx; subst; auto). simpl in H.
      rewrite tree_events_elem. cbn [app reach include Nat.eqb andb]. rewrite H.
      cbn [adjust]. rewrite <- app_assoc, reach_deep_forest by auto. reflexivity.
Qed.
Lemma reach_selects_in direct m F xs rs out : ElementSelector m -> SelectsIn direct m F xs rs out -> Proper F ->
  reach m direct 0 (events F) = some_of xs.
Proof.
  intros Hm Hs HF. destruct direct; simpl in Hs.
  - eapply reach_selects_direct; eauto.
  - rewrite <- (app_nil_r (events F)). erewrite reach_selects by eauto. simpl. now rewrite orb_false_r.
Qed.

(** ** Results *)

Lemma nest_events F : Proper F -> nest [] (events F) = Some [].
Proof. intros H. exact (good_template _ (well_nested_events _ H)). Qed.

Lemma close_no_noop F n rest : Proper F -> ~ In Noop rest -> ~ In Noop (events F ++ ClosingTag n :: rest).
Proof. intros HF H. apply events_no_noop; auto. intros [X|X]; [discriminate|auto]. Qed.

Lemma close_select T q direct m b F n rest r0 :
  WellNested T -> Offers T q (events F ++ ClosingTag n :: rest) -> ~ In Noop rest ->
  Proper F -> ElementSelector m -> ElementBuilder b -> ValidArgs [OSelect direct (inl m) b] ->
  Gives (events F) [OSelect direct (inl m) b] r0 ->
  Gives T (q ++ [OSelect direct (inl m) b]) (followed_by r0 (inr (unexpected_close n))).
Proof.
  intros HT Ho Hn HF Hm Hb Hv Hr.
  assert (r0 = outcome (d_select (length (events F)) m (fun k => d_pipe (b k)) direct 0 0 (events F) None)) as ->.
  { refine (proj1 (gives_iff _ _ false false _ _ _ _) Hr); auto.
    - apply good_template, well_nested_events, HF.
    - apply typed_one. constructor. exact Hb. }
  change (inr (unexpected_close n)) with (outcome ([], Some (unexpected_close n))).
  rewrite <- outcome_tapp, (surjective_pairing (tapp _ _)).
  apply (gives_select T q _ direct m b _ _ HT Ho); [now apply close_no_noop|]. intros l s Hs.
  apply (strm_select_then m b (fun k => d_pipe (b k)) direct l false (fun _ => True) (ClosingTag n :: rest)
           (fun _ => ([], Some (unexpected_close n))) Hm) with (st := []); auto.
  - intros k. destruct (Hb k) as [e He].
    assert (WellP (b k)) by (apply valid_args_well; eapply select_builder_valid; eauto). split.
    + eapply keeps_strict. eapply keeps_weaken. eapply keeps_pipe; eauto.
    + exists e. now apply builds_pipe.
  - intros. now apply (strm_select_close m b direct l false _ n rest).
  - now apply nest_events.
Qed.

Lemma close_once_none T q direct m p e F n rest rs out :
  WellNested T -> Offers T q (events F ++ ClosingTag n :: rest) -> ~ In Noop rest ->
  Proper F -> ElementSelector m -> typed true p e -> ValidArgs [OSelectOnce direct (inl m) p] ->
  SelectsIn direct m F [] rs out ->
  Gives T (q ++ [OSelectOnce direct (inl m) p]) (inr (unexpected_close n)).
Proof.
  intros HT Ho Hn HF Hm Ht Hv Hs.
  change (inr (unexpected_close n)) with (outcome (events F, Some (unexpected_close n))).
  apply (gives_select_once T q _ direct m p _ _ HT Ho); [now apply close_no_noop|]. intros l s Hstrm.
  apply (strm_once_unexpected m p direct l false _ n rest); auto.
  - now apply nest_events.
  - eapply (reach_selects_in direct m F []); eauto.
Qed.

Lemma close_once_some T q direct m p e F x xs rest rs out r0 :
  WellNested T -> Offers T q (events F ++ rest) -> ~ In Noop rest ->
  Proper F -> ElementSelector m -> typed true p e -> ValidArgs [OSelectOnce direct (inl m) p] ->
  SelectsIn direct m F (x :: xs) rs out ->
  Gives (events F) [OSelectOnce direct (inl m) p] r0 ->
  Gives T (q ++ [OSelectOnce direct (inl m) p]) (followed_by r0 (inl rest)).
Proof.
  intros HT Ho Hn HF Hm Ht Hv Hs Hr.
  assert (r0 = outcome (d_select_once m (d_pipe p) direct 0 (events F) None)) as ->.
  { refine (proj1 (gives_iff _ _ false false _ _ _ _) Hr); auto.
    - apply good_template, well_nested_events, HF.
    - eapply typed_select_once; eauto. }
  change (inl rest : list event + stream_error) with (outcome (rest, None)).
  rewrite <- outcome_tapp, (surjective_pairing (tapp _ _)).
  apply (gives_select_once T q _ direct m p _ _ HT Ho); [now apply events_no_noop|]. intros l s Hstrm.
  assert (WellP p) by (apply valid_args_well; eapply once_builder_valid; eauto).
  apply (strm_once_before m p (d_pipe p) direct l false (fun _ => True) e rest Hm) with (st := []); auto.
  - eapply keeps_strict. eapply keeps_weaken. eapply keeps_pipe; eauto.
  - now apply builds_pipe.
  - now apply nest_events.
  - erewrite reach_selects_in; eauto. reflexivity.
Qed.
