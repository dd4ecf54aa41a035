(** The events produced by selections and by operations on contents. *)
From Coq Require Import String ZArith.
From stdpp Require Import gmap.
From Verif Require Import Text Event Input Parse Selector Machine StreamBase Trace.
From Verif Require Import TraceProofs StreamProofs StreamProofs2.
Local Open Scope nat_scope.

(** ** [Select] *)

Lemma active_step l m b calls direct level H H' s s' r :
  Ev (fun m => ne (run m) H s) H' (s', r) ->
  exists s1, Ev (fun n => ne (run n) H (SSelect l m b calls direct (Some (SelActive level s)))) H'
               (s1, seq_result r) /\
             seq_state (fun s => SSelect l m b calls direct (Some (SelActive level s)))
               (SSelect l m b calls direct (Some (SelScanning level))) s' s1 r.
Proof.
  intros E. destruct r as [[ev|]|err]; simpl.
  - eexists. split; [ne_by E|reflexivity].
  - eexists. split; [ne_by E|reflexivity].
  - exists (SSelect l m b calls direct None). split; [ne_by E|exact I].
Qed.

Lemma strm_select m b g direct l elem Q t : 
  (forall k, Strict (g k) true /\ exists e', Builds (g k) (build (b k)) true e') ->
  forall n s evs h level calls st st',
  length evs <= n -> h !! l = None -> Strm elem Q t s evs h ->
  nest st evs = Some st' -> (t = None -> st' = []) -> level = length st ->
  Strm false Q (snd (d_select n m g direct level calls evs t))
    (SSelect l m b calls direct (Some (SelScanning level)))
    (fst (d_select n m g direct level calls evs t)) (<[l := Cell s]> h).
Proof.
  intros Hb. induction n as [|n IH]; intros s evs h level calls st st' Hlen Hl Hs Hn Ht Hlev.
  - destruct evs; [|simpl in Hlen; lia]. simpl.
    constructor; [discriminate|]. intros hf Hd.
    destruct (shared_sk _ _ _ _ _ _ _ Hl Hs hf Hd) as (s' & h' & r & E & Hd' & HA).
    destruct HA as [ev evs' E1 E3 X|E1 E3 X|err E1 E3]; [discriminate| |].
    + exists (SSelect l m b calls direct None), h', (inl None).
      split; [ne_by E|split; [exact Hd'|]]. now apply After_end.
    + exists (SSelect l m b calls direct None), h', (inr err).
      split; [ne_by E|split; [exact Hd'|]]. now apply After_err.
  - constructor; [discriminate|]. intros hf Hd.
    destruct (shared_sk _ _ _ _ _ _ _ Hl Hs hf Hd) as (s' & h' & r & E & Hd' & HA).
    destruct HA as [ev evs' E1 E3 X|E1 E3 X|err E1 E3].
    + subst evs. destruct X as (-> & s1 & h1 & -> & Hl1 & Hs1). cbn [d_select].
      destruct (include direct level && matches m ev) eqn:Em.
      * pose proof (strm_single elem Q t s1 ev evs' h1 l st st' Hl1 Hs1 Hn Ht) as Hsingle.
        pose proof (single_good st ev evs' st' t Hn Ht) as Hgood.
        destruct (d_single ev evs' t) as [[el tel] rest'] eqn:Ed. destruct Hgood as [Hgood Hrest].
        destruct (Hb calls) as [Hstrict [e' Hbuild]].
        destruct (Hbuild _ _ _ _ _ Hsingle Hgood hf Hd') as (h2 & s2 & Eb & Hd2 & Hs2).
        exists (SSelect l m b (S calls) direct (Some (SelActive level s2))), h2, (inl (Some Noop)).
        split; [|split; [exact Hd2|]].
        -- destruct E as [k Hk]. apply ne_intro. exists k. intros j Hj. cbn [ne_body]. unfold on_ok.
           rewrite Hk by auto. cbn [obind]. rewrite Em, Eb. reflexivity.
        -- apply After_noop. cbn [fst snd] in Hs2.
           rewrite (surjective_pairing (g calls (el, tel))).
           rewrite (surjective_pairing (d_select n m g direct level (S calls) rest' t)).
           apply (strm_seq (fun s => SSelect l m b (S calls) direct (Some (SelActive level s)))
                   (SSelect l m b (S calls) direct (Some (SelScanning level))) e'
                   (CellX l (Strm elem Q t) rest')).
           ++ intros. now apply active_step.
           ++ exact Hs2.
           ++ intros Hnone hq (s3 & h3 & -> & Hl3 & Hs3).
              destruct Hrest as [(Happ & Htel & Hnest)|Htel]; cbn [fst snd] in *.
              ** apply (IH s3 rest' h3 level (S calls) st st'); auto.
                 apply (f_equal (@length event)) in Happ. rewrite app_length in Happ.
                 simpl in Happ, Hlen. 
                 destruct el as [|e0 el]; [|simpl in Happ; lia].
                 subst tel. contradiction.
              ** exfalso. destruct tel as [err|]; [|now apply Htel]. now apply (Hstrict el err).
           ++ discriminate.
      * simpl in Hn. destruct (nest1 st ev) as [st1|] eqn:En; [|discriminate].
        pose proof (nest1_adjust _ _ _ En) as Ha. rewrite <- Hlev in Ha. rewrite Ha.
        exists (SSelect l m b calls direct (Some (SelScanning (length st1)))),
          (<[l := Cell s1]> h1), (inl (Some ev)).
        split; [|split; [exact Hd'|]].
        -- destruct E as [k Hk]. apply ne_intro. exists k. intros j Hj. cbn [ne_body]. unfold on_ok.
           rewrite Hk by auto. cbn [obind]. rewrite Em, Ha. reflexivity.
        -- rewrite (surjective_pairing (d_select n m g direct (length st1) calls evs' t)).
           cbn [tapp fst snd]. eapply After_event; [reflexivity|exact E3|].
           apply (IH s1 evs' h1 (length st1) calls st1 st'); auto. simpl in Hlen. lia.
    + subst evs t. exists (SSelect l m b calls direct None), h', (inl None).
      split; [ne_by E|split; [exact Hd'|]]. simpl. now apply After_end.
    + subst evs t. exists (SSelect l m b calls direct None), h', (inr err).
      split; [ne_by E|split; [exact Hd'|]]. now apply After_err.
Qed.

(** ** [SelectOnce] *)

Lemma once_active_step l H H' s s' r :
  Ev (fun m => ne (run m) H s) H' (s', r) ->
  exists s1, Ev (fun n => ne (run n) H (SSelectOnce l (Some (SelOActive s)))) H'
               (s1, seq_result r) /\
             seq_state (fun s => SSelectOnce l (Some (SelOActive s)))
               (SSelectOnce l (Some SelOPassthrough)) s' s1 r.
Proof.
  intros E. destruct r as [[ev|]|err]; simpl.
  - eexists. split; [ne_by E|reflexivity].
  - eexists. split; [ne_by E|reflexivity].
  - exists (SSelectOnce l None). split; [ne_by E|exact I].
Qed.

Lemma strm_passthrough elem Q t s evs h l : h !! l = None -> Strm elem Q t s evs h ->
  Strm false Q t (SSelectOnce l (Some SelOPassthrough)) evs (<[l := Cell s]> h).
Proof.
  intros Hl Hs. revert s evs h Hs Hl.
  apply (strm_ind _ _ _ (fun s evs h => h !! l = None ->
    Strm false Q t (SSelectOnce l (Some SelOPassthrough)) evs (<[l := Cell s]> h))).
  intros s evs h He Hs Hl. constructor; [discriminate|]. intros hf Hd.
  destruct (shared_step _ _ _ _ Hl Hs hf Hd) as (s' & h' & r & E & Hd' & -> & s1 & h1 & -> & Hl1 & HA).
  destruct HA as [[X Y]|ev evs' E1 E3 [X Y]|E1 E3 X|err E1 E3].
  - eexists _, _, _. split; [ne_by E|split; [exact Hd'|]]. apply After_noop. auto.
  - eexists _, _, _. split; [ne_by E|split; [exact Hd'|]]. eapply After_event; eauto.
  - eexists _, _, _. split; [ne_by E|split; [exact Hd'|]]. apply After_end; auto.
    eapply post_mono; [|exact X]. now apply insert_subseteq.
  - eexists _, _, _. split; [ne_by E|split; [exact Hd'|]]. now apply After_err.
Qed.

Lemma strm_select_once m p g direct l elem Q t e' : 
  Strict g true -> Builds g (build p) true e' ->
  forall evs s h level st st',
  h !! l = None -> Strm elem Q t s evs h ->
  nest st evs = Some st' -> (t = None -> st' = []) -> level = length st ->
  Strm false Q (snd (d_select_once m g direct level evs t))
    (SSelectOnce l (Some (SelOScanning m p direct level)))
    (fst (d_select_once m g direct level evs t)) (<[l := Cell s]> h).
Proof.
  intros Hstrict Hbuild.
  induction evs as [|ev0 evs IH]; intros s h level st st' Hl Hs Hn Ht Hlev;
    (constructor; [discriminate|]); intros hf Hd;
    destruct (shared_sk _ _ _ _ _ _ _ Hl Hs hf Hd) as (s' & h' & r & E & Hd' & HA);
    destruct HA as [ev evs' E1 E3 X|E1 E3 X|err E1 E3]; try discriminate.
  - exists (SSelectOnce l None), h', (inl None).
    split; [ne_by E|split; [exact Hd'|]]. now apply After_end.
  - exists (SSelectOnce l None), h', (inr err).
    split; [ne_by E|split; [exact Hd'|]]. now apply After_err.
  - injection E1 as <- <-.
    destruct X as (-> & s1 & h1 & -> & Hl1 & Hs1). cbn [d_select_once].
    destruct (include direct level && matches m ev0) eqn:Em.
    + pose proof (strm_single elem Q t s1 ev0 evs h1 l st st' Hl1 Hs1 Hn Ht) as Hsingle.
      pose proof (single_good st ev0 evs st' t Hn Ht) as Hgood.
      destruct (d_single ev0 evs t) as [[el tel] rest'] eqn:Ed. destruct Hgood as [Hgood Hrest].
      destruct (Hbuild _ _ _ _ _ Hsingle Hgood hf Hd') as (h2 & s2 & Eb & Hd2 & Hs2).
      exists (SSelectOnce l (Some (SelOActive s2))), h2, (inl (Some Noop)).
      split; [|split; [exact Hd2|]].
      * destruct E as [k Hk]. apply ne_intro. exists k. intros j Hj. cbn [ne_body]. unfold on_ok.
        rewrite Hk by auto. cbn [obind]. rewrite Em, Eb. reflexivity.
      * apply After_noop. cbn [fst snd] in Hs2.
        rewrite (surjective_pairing (g (el, tel))).
        apply (strm_seq (fun s => SSelectOnce l (Some (SelOActive s)))
                 (SSelectOnce l (Some SelOPassthrough)) e' (CellX l (Strm elem Q t) rest')).
        -- intros. now apply once_active_step.
        -- exact Hs2.
        -- intros Hnone hq (s3 & h3 & -> & Hl3 & Hs3). now apply (strm_passthrough elem).
        -- discriminate.
    + simpl in Hn. destruct (nest1 st ev0) as [st1|] eqn:En; [|discriminate].
      pose proof (nest1_adjust _ _ _ En) as Ha. rewrite <- Hlev in Ha. rewrite Ha.
      exists (SSelectOnce l (Some (SelOScanning m p direct (length st1)))),
        (<[l := Cell s1]> h1), (inl (Some ev0)).
      split; [|split; [exact Hd'|]].
      * destruct E as [k Hk]. apply ne_intro. exists k. intros j Hj. cbn [ne_body]. unfold on_ok.
        rewrite Hk by auto. cbn [obind]. rewrite Em, Ha. reflexivity.
      * rewrite (surjective_pairing (d_select_once m g direct (length st1) evs t)).
        cbn [tapp fst snd]. eapply After_event; [reflexivity|exact E3|].
        apply (IH s1 h1 (length st1) st1 st'); auto.
Qed.

(** ** Contents *)

(** The stream of children, read through a [Peek]. *)
Definition Pk (Q : heap -> Prop) (t : option stream_error) (sp : strm) (evs : list event)
    (h : heap) : Prop :=
  exists s, (sp = SPeek s None /\ Strm true Q t s evs h) \/
            (exists ev evs', sp = SPeek s (Some ev) /\ evs = ev :: evs' /\ ev <> Noop /\
                             Strm true Q t s evs' h).

Lemma pk_next Q t sp evs h : Pk Q t sp evs h ->
  StepF NE h sp (AfterS Q t (Pk Q t) evs).
Proof.
  intros (s & [[-> Hs]|(ev & evs' & -> & -> & Hnn & Hs)]) hf Hd.
  - destruct (strm_sk _ _ _ _ _ _ Hs hf Hd) as (s' & h' & r & E & Hd' & HA).
    destruct HA as [ev evs' E1 E3 X|E1 E3 X|err E1 E3].
    + exists (SPeek s' None), h', (inl (Some ev)). split; [ne_by E|split; [exact Hd'|]].
      eapply AfterS_event; eauto. exists s'. auto.
    + exists (SPeek s' None), h', (inl None). split; [ne_by E|split; [exact Hd'|]].
      now apply AfterS_end.
    + exists (SPeek s' None), h', (inr err). split; [ne_by E|split; [exact Hd'|]].
      now apply AfterS_err.
  - exists (SPeek s None), h, (inl (Some ev)). split; [ne_now|split; [exact Hd|]].
    eapply AfterS_event; eauto. exists s. auto.
Qed.

Lemma pk_peek Q t sp evs h : Pk Q t sp evs h ->
  StepF PK h sp (fun sp' h' r =>
    match evs with
    | ev :: evs' => r = inl (Some ev) /\ ev <> Noop /\
        exists s, sp' = SPeek s (Some ev) /\ Strm true Q t s evs' h'
    | [] => match t with Some err => r = inr err | None => True end
    end).
Proof.
  intros (s & [[-> Hs]|(ev & evs' & -> & -> & Hnn & Hs)]) hf Hd.
  - destruct (strm_sk _ _ _ _ _ _ Hs hf Hd) as (s' & h' & r & [n Hn] & Hd' & HA).
    destruct HA as [ev evs' E1 E3 X|E1 E3 X|err E1 E3].
    + exists (SPeek s' (Some ev)), h', (inl (Some ev)). split; [|split; [exact Hd'|]].
      * exists n. intros m Hm. cbn [peek]. unfold on_ok. rewrite Hn by auto. reflexivity.
      * subst evs. eauto.
    + exists (SPeek s' None), h', (inl None). split; [|split; [exact Hd'|]].
      * exists n. intros m Hm. cbn [peek]. unfold on_ok. rewrite Hn by auto. reflexivity.
      * subst evs t. exact I.
    + exists (SPeek s' None), h', (inr err). split; [|split; [exact Hd'|]].
      * exists n. intros m Hm. cbn [peek]. unfold on_ok. rewrite Hn by auto. reflexivity.
      * subst evs t. reflexivity.
  - exists (SPeek s (Some ev)), h, (inl (Some ev)). split; [|split; [exact Hd|]].
    + exists 0. reflexivity.
    + eauto.
Qed.

(** After the children the closing tag is in the buffer. *)
Definition Closing (l : loc) (c : ident) (Q : heap -> Prop) (h : heap) : Prop :=
  exists s1 h1, h = <[l := Cell (SPeek s1 (Some (ClosingTag c)))]> h1 /\ h1 !! l = None /\
                Strm true Q None s1 [] h1.

Lemma current_next Q t sp ev evs h l tag level lv (Z : strm -> heap -> stream_result -> Prop) :
  h !! l = None -> Pk Q t sp (ev :: evs) h -> adjust level ev = inl lv ->
  (forall sp1 h1, h1 !! l = None -> Pk Q t sp1 evs h1 ->
     Z (SCurrentContent (Some (tag, l, lv))) (<[l := Cell sp1]> h1) (inl (Some ev))) ->
  forall hf, hf ##ₘ <[l := Cell sp]> h -> exists s' h' r,
    Ev (fun m => on_ok (ne (run m) (hf ∪ <[l := Cell sp]> h) (SShared l))
          (fun _ => SCurrentContent None) (fun h _ r =>
          match r with
          | None => fail h (SCurrentContent None) (missing_close tag)
          | Some ev =>
              match adjust level ev with
              | inl level => emit h (SCurrentContent (Some (tag, l, level))) ev
              | inr _ => fail h (SCurrentContent None) (missing_close tag)
              end
          end)) (hf ∪ h') (s', r) /\ hf ##ₘ h' /\ Z s' h' r.
Proof.
  intros Hl Hp Ha HZ hf Hd.
  destruct (shared_step _ _ _ _ Hl (pk_next _ _ _ _ _ Hp) hf Hd)
    as (s' & h' & r & E & Hd' & -> & s1 & h1 & -> & Hl1 & HA).
  destruct HA as [ev1 evs' E1 E3 X|E1 E3 X|err E1 E3]; try discriminate.
  injection E1 as <- <-.
  eexists _, _, _. split; [|split; [exact Hd'|apply (HZ s1 h1 Hl1 X)]].
  destruct E as [n Hn]. exists n. intros m Hm. unfold on_ok. rewrite Hn by auto. cbn [obind].
  rewrite Ha. reflexivity.
Qed.

Lemma strm_current Q t tag l : forall kids sp h level st tail,
  h !! l = None -> Pk Q t sp (kids ++ tail) h -> level = length st ->
  forall c,
  (t = None -> tail = [ClosingTag c] /\ ident_eqb c tag = true /\ nest st kids = Some []) ->
  (t <> None -> tail = [] /\ exists st', nest st kids = Some st') ->
  Strm false (Closing l c Q) t (SCurrentContent (Some (tag, l, level))) kids
    (<[l := Cell sp]> h).
Proof.
  induction kids as [|ev kids IH]; intros sp h level st tail Hl Hp Hlev c Hnone Hsome;
    (constructor; [discriminate|]); intros hf Hd.
  - destruct t as [err|].
    + destruct (Hsome ltac:(discriminate)) as (-> & _). simpl in Hp.
      destruct (Nat.eqb level 0) eqn:El.
      * destruct (with_cell_step _ _ _ _ _ Hl (pk_peek _ _ _ _ _ Hp) hf Hd)
          as (s' & h' & r & [n Hn] & Hd' & -> & s1 & h1 & -> & Hl1 & HA). cbn in HA. subst r.
        eexists (SCurrentContent None), _, (inr err). split; [|split; [exact Hd'|]].
        -- apply ne_intro. exists n. intros m Hm. cbn [ne_body]. rewrite El. cbn [negb].
           unfold on_ok at 1. rewrite Hn by auto. reflexivity.
        -- now apply After_err.
      * destruct (shared_step _ _ _ _ Hl (pk_next _ _ _ _ _ Hp) hf Hd)
          as (s' & h' & r & [n Hn] & Hd' & -> & s1 & h1 & -> & Hl1 & HA).
        destruct HA as [ev1 evs' E1 E3 X|E1 E3 X|err' E1 E3]; try discriminate.
        eexists (SCurrentContent None), _, (inr err'). split; [|split; [exact Hd'|]].
        -- apply ne_intro. exists n. intros m Hm. cbn [ne_body]. rewrite El. cbn [negb].
           unfold on_ok at 1. rewrite Hn by auto. reflexivity.
        -- now apply After_err.
    + destruct (Hnone eq_refl) as (-> & Hc & Hst). simpl in Hst. injection Hst as ->.
      simpl in Hlev. subst level. simpl in Hp.
      destruct (with_cell_step _ _ _ _ _ Hl (pk_peek _ _ _ _ _ Hp) hf Hd)
        as (s' & h' & r & [n Hn] & Hd' & -> & s1 & h1 & -> & Hl1 & -> & _ & s2 & -> & Hs2).
      eexists (SCurrentContent None), _, (inl None). split; [|split; [exact Hd'|]].
      * apply ne_intro. exists n. intros m Hm. cbn [ne_body Nat.eqb negb].
        unfold on_ok at 1. rewrite Hn by auto. cbn [obind is_closing_tag_for]. rewrite Hc.
        reflexivity.
      * apply After_end; auto. apply post_intro. exists s2, h1. auto.
  - assert (exists st1, nest1 st ev = Some st1) as [st1 En].
    { destruct t as [err|].
      - destruct (Hsome ltac:(discriminate)) as (_ & st' & Hst). simpl in Hst.
        destruct (nest1 st ev); [eauto|discriminate].
      - destruct (Hnone eq_refl) as (_ & _ & Hst). simpl in Hst.
        destruct (nest1 st ev); [eauto|discriminate]. }
    pose proof (nest1_adjust _ _ _ En) as Ha. rewrite <- Hlev in Ha.
    assert (forall sp1 h1, h1 !! l = None -> Pk Q t sp1 (kids ++ tail) h1 ->
      Strm false (Closing l c Q) t (SCurrentContent (Some (tag, l, length st1))) kids
        (<[l := Cell sp1]> h1)) as Hrec.
    { intros sp1 h1 Hl1 Hp1. apply (IH sp1 h1 (length st1) st1 tail); auto.
      - intros Ht. destruct (Hnone Ht) as (H1 & H2 & H3). simpl in H3. rewrite En in H3. auto.
      - intros Ht. destruct (Hsome Ht) as (H1 & H2). simpl in H2. rewrite En in H2. auto. }
    assert (ev <> Noop) as Hnn by (intros ->; discriminate).
    simpl in Hp.
    destruct (Nat.eqb level 0) eqn:El.
    + destruct (with_cell_step _ _ _ _ _ Hl (pk_peek _ _ _ _ _ Hp) hf Hd)
        as (s' & h' & r & [n Hn] & Hd' & -> & s1 & h1 & -> & Hl1 & -> & _ & s2 & -> & Hs2).
      assert (Pk Q t (SPeek s2 (Some ev)) (ev :: kids ++ tail) h1) as Hp2.
      { exists s2. right. eauto 10. }
      destruct (current_next Q t _ ev (kids ++ tail) h1 l tag level (length st1)
                  (After (Closing l c Q) t (Strm false (Closing l c Q) t) (ev :: kids))
                  Hl1 Hp2 Ha) with (hf := hf) as (s3 & h3 & r3 & [n3 Hn3] & Hd3 & HZ); auto.
      { intros sp1 h2 Hl2 Hp3. eapply After_event; eauto. }
      exists s3, h3, r3. split; [|auto]. apply ne_intro. exists (max n n3). intros m Hm.
      cbn [ne_body]. rewrite El. cbn [negb]. unfold on_ok at 1. rewrite Hn by lia. cbn [obind].
      assert (is_closing_tag_for ev tag = false) as ->.
      { apply Nat.eqb_eq in El. rewrite El in Hlev. destruct st; [|discriminate].
        destruct ev; try reflexivity. discriminate. }
      apply Hn3. lia.
    + destruct (current_next Q t _ ev (kids ++ tail) h l tag level (length st1)
                  (After (Closing l c Q) t (Strm false (Closing l c Q) t) (ev :: kids))
                  Hl Hp Ha) with (hf := hf) as (s3 & h3 & r3 & [n3 Hn3] & Hd3 & HZ); auto.
      { intros sp1 h2 Hl2 Hp3. eapply After_event; eauto. }
      exists s3, h3, r3. split; [|auto]. apply ne_intro. exists n3. intros m Hm.
      cbn [ne_body]. rewrite El. cbn [negb]. apply Hn3. lia.
Qed.

Lemma strm_close l tag c Q h : Closing l c Q h -> ident_eqb c tag = true ->
  Strm true Q None (SSelectContent (Some (SCClose l tag))) [ClosingTag c] h.
Proof.
  intros (s1 & h1 & -> & Hl1 & Hs1) Hc. constructor; [discriminate|]. intros hf Hd.
  assert (Pk Q None (SPeek s1 (Some (ClosingTag c))) [ClosingTag c] h1) as Hp.
  { exists s1. right. exists (ClosingTag c), []. split; [reflexivity|]. split; [reflexivity|]. split; [discriminate|exact Hs1]. }
  destruct (shared_step _ _ _ _ Hl1 (pk_next _ _ _ _ _ Hp) hf Hd)
    as (s' & h' & r & E & Hd' & -> & s2 & h2 & -> & Hl2 & HA).
  destruct HA as [ev1 evs' E1 E3 X|E1 E3 X|err E1 E3]; try discriminate.
  injection E1 as <- <-. apply sk_ret in E; [|congruence].
  exists (SSelectContent None), (<[l := Cell s2]> h2), (inl (Some (ClosingTag c))).
  split; [|split; [exact Hd'|]].
  - destruct E as [n Hn]. apply ne_intro. exists n. intros m Hm. cbn [ne_body]. unfold on_ok.
    rewrite Hn by auto. cbn [obind]. rewrite Hc. reflexivity.
  - eapply After_event; [reflexivity|congruence|].
    apply (strm_finish _ _ _ (SSelectContent None)); [intros; ne_now|].
    destruct X as (s3 & [[-> Hs3]|(ev & evs' & _ & Ec & _)]); [|discriminate].
    eapply post_mono; [|apply (strm_post _ _ _ _ _ _ Hs3); auto]. now apply insert_subseteq.
Qed.

Lemma content_step l tag H H' s s' r :
  Ev (fun m => ne (run m) H s) H' (s', r) ->
  exists s1, Ev (fun n => ne (run n) H (SSelectContent (Some (SCContent l s tag)))) H'
               (s1, seq_result r) /\
             seq_state (fun s => SSelectContent (Some (SCContent l s tag)))
               (SSelectContent (Some (SCClose l tag))) s' s1 r.
Proof.
  intros E. destruct r as [[ev|]|err]; simpl.
  - eexists. split; [ne_by E|reflexivity].
  - eexists. split; [ne_by E|reflexivity].
  - exists (SSelectContent None). split; [ne_by E|exact I].
Qed.

Lemma expand_sk H s H' x r s2 r2 : r2 <> inl (Some Noop) ->
  Ev (fun m => sk (run m) H s) H' (x, r) ->
  (forall m, on_ok (Done H' (x, r)) (fun _ => SExpand None) (fun h s r =>
        match r with
        | Some (OpeningTag tag attrs) =>
            emit h (SExpand (Some (XEmitStream s))) (OpeningTag tag attrs)
        | Some (SelfClosedTag tag attrs) =>
            emit h (SExpand (Some (XEmitClosingTag tag))) (OpeningTag tag attrs)
        | Some (VoidTag tag attrs) => emit h (SExpand None) (VoidTag tag attrs)
        | other => fail h (SExpand None) (expected_open other)
        end) = (fun _ : nat => Done H' (s2, r2)) m) ->
  Ev (fun m => sk (run m) H (SExpand (Some (XStart s)))) H' (s2, r2).
Proof.
  intros Hr [n Hn] Heq. apply sk_ret; [exact Hr|]. apply ne_intro. exists n. intros m Hm.
  cbn [ne_body]. rewrite Hn by auto. apply (Heq 0).
Qed.

(** The part of [SelectContent] after the start tag; [x] is the stream behind it. *)
Lemma strm_inside Q t g cb e' x tag attrs kids tail c h :
  Strict g false -> Builds g (build_content cb) false e' ->
  Strm true Q t x (kids ++ tail) h ->
  (t = None -> tail = [ClosingTag c] /\ ident_eqb c tag = true /\ nest [] kids = Some []) ->
  (t <> None -> tail = [] /\ exists st', nest [] kids = Some st') ->
  forall hf, hf ##ₘ h -> exists s' h',
    obind (build_content cb (<[fresh_loc (hf ∪ h) := Cell (SPeek x None)]> (hf ∪ h))
             (SCurrentContent (Some (tag, fresh_loc (hf ∪ h), 0))))
      (fun h' s => emit h' (SSelectContent (Some (SCContent (fresh_loc (hf ∪ h)) s tag)))
                      (OpeningTag tag attrs))
    = Done (hf ∪ h') (s', inl (Some (OpeningTag tag attrs))) /\
    hf ##ₘ h' /\
    Strm true Q (snd (tapp (g (kids, t)) ([ClosingTag c], None))) s'
      (fst (tapp (g (kids, t)) ([ClosingTag c], None))) h'.
Proof.
  intros Hstrict Hbuild Hx Hnone Hsome hf Hd.
  pose proof (fresh_loc_none (hf ∪ h)) as Hfresh.
  apply lookup_union_None in Hfresh as [Hfl Hl].
  set (l := fresh_loc (hf ∪ h)) in *.
  rewrite insert_union_r by auto.
  assert (Strm false (Closing l c Q) t (SCurrentContent (Some (tag, l, 0))) kids
            (<[l := Cell (SPeek x None)]> h)) as Hcur.
  { apply (strm_current Q t tag l kids (SPeek x None) h 0 [] tail); auto. exists x. auto. }
  assert (Good false (kids, t)) as Hgood.
  { unfold Good. cbn [fst snd]. destruct t as [err|].
    - now destruct (Hsome ltac:(discriminate)).
    - now destruct (Hnone eq_refl) as (_ & _ & ?). }
  destruct (Hbuild _ _ _ _ _ Hcur Hgood hf) as (h' & s' & Eb & Hd' & Hs').
  { apply map_disjoint_insert_r. auto. }
  rewrite Eb. cbn [obind].
  exists (SSelectContent (Some (SCContent l s' tag))), h'. split; [reflexivity|split; [exact Hd'|]].
  rewrite (surjective_pairing (g (kids, t))).
  apply (strm_seq (fun s => SSelectContent (Some (SCContent l s tag)))
           (SSelectContent (Some (SCClose l tag))) e' (Closing l c Q)).
  - intros. now apply content_step.
  - exact Hs'.
  - intros Hn hq Hq. apply strm_close; [exact Hq|].
    destruct t as [err|]; [exfalso; now apply (Hstrict kids err)|].
    now destruct (Hnone eq_refl) as (_ & ? & _).
  - discriminate.
Qed.

Lemma strm_contents Q t s evs h g cb e' :
  Strm true Q t s evs h -> Good true (evs, t) ->
  Strict g false -> Builds g (build_content cb) false e' ->
  Strm true Q (snd (d_contents g (evs, t))) (select_content_new s cb)
    (fst (d_contents g (evs, t))) h.
Proof.
  intros Hs Hg Hstrict Hbuild. constructor.
  { intros _. destruct evs as [|[] evs]; simpl; try discriminate. destruct t; discriminate. }
  intros hf Hd.
  destruct (strm_sk _ _ _ _ _ _ Hs hf Hd) as (s' & h' & r & E & Hd' & HA).
  destruct HA as [ev evs' E1 E3 X|E1 E3 X|err E1 E3]; subst evs.
  - destruct ev; try (destruct t; contradiction); cbn [d_contents].
    + assert (exists kids tail c, evs' = kids ++ tail /\
        (t = None -> tail = [ClosingTag c] /\ ident_eqb c tag = true /\ nest [] kids = Some []) /\
        (t <> None -> tail = [] /\ exists st', nest [] kids = Some st')) as
        (kids & tail & c & -> & Hnone & Hsome).
      { unfold Good in Hg. destruct t as [err|]; simpl in Hg.
        - exists evs', [], tag. rewrite app_nil_r. split; [reflexivity|].
          split; [discriminate|]. tauto.
        - destruct Hg as (_ & kids & c & -> & Hc & Hk). exists kids, [ClosingTag c], c.
          split; [reflexivity|]. split; [auto|congruence]. }
      apply strm_expand in X.
      destruct (strm_inside Q t g cb e' _ tag attrs kids tail c h' Hstrict Hbuild X Hnone Hsome hf Hd')
        as (s2 & h2 & Eb & Hd2 & Hs2).
      exists s2, h2, (inl (Some (OpeningTag tag attrs))). split; [|split; [exact Hd2|]].
      * apply (expand_sk _ _ _ _ _ (SExpand (Some (XEmitStream s'))) (inl (Some (OpeningTag tag attrs))))
          in E; [|congruence|reflexivity].
        destruct E as [n Hn]. apply ne_intro. exists n. intros m Hm. cbn [ne_body].
        unfold select_content_new. cbn [ne_body]. unfold on_ok. rewrite Hn by auto. cbn [obind].
        exact Eb.
      * destruct t as [err|].
        -- destruct (Hsome ltac:(discriminate)) as (-> & _). rewrite app_nil_r.
           assert (Good false (kids, Some err)) as Hgk.
           { destruct (Hsome ltac:(discriminate)) as (_ & ?). exact H. }
           specialize (Hstrict kids err Hgk).
           destruct (g (kids, Some err)) as [gk [gerr|]]; [|now destruct Hstrict].
           cbn [tapp fst snd] in Hs2 |- *. eapply After_event; [reflexivity|congruence|exact Hs2].
        -- destruct (Hnone eq_refl) as (-> & _ & _).
           rewrite removelast_last, last_last. 
           destruct (tapp (g (kids, None)) ([ClosingTag c], None)) as [ge gt] eqn:Eg.
           cbn [tapp fst snd] in Hs2 |- *. eapply After_event; [reflexivity|congruence|exact Hs2].
    + destruct t as [err|]; [contradiction|]. destruct evs'; [|contradiction].
      unfold Good in Hg. simpl in Hg.
      pose proof (strm_post _ _ _ _ _ _ X eq_refl eq_refl eq_refl) as HQ.
      pose proof (strm_expand_close true Q tag h' HQ) as Hx.
      destruct (strm_inside Q None g cb e' _ tag attrs [] [ClosingTag tag] tag h' Hstrict Hbuild Hx)
        with (hf := hf) as (s2 & h2 & Eb & Hd2 & Hs2);
        [intros _; split; [reflexivity|split; [exact (valid_start_refl _ _ Hg)|reflexivity]]
        |intros Hc; now destruct Hc|exact Hd'|].
      exists s2, h2, (inl (Some (OpeningTag tag attrs))). split; [|split; [exact Hd2|]].
      * apply (expand_sk _ _ _ _ _ (SExpand (Some (XEmitClosingTag tag))) (inl (Some (OpeningTag tag attrs))))
          in E; [|congruence|reflexivity].
        destruct E as [n Hn]. apply ne_intro. exists n. intros m Hm.
        unfold select_content_new. cbn [ne_body]. unfold on_ok. rewrite Hn by auto. cbn [obind].
        exact Eb.
      * destruct (tapp (g ([], None)) ([ClosingTag tag], None)) as [ge gt] eqn:Eg.
        cbn [tapp fst snd] in Hs2 |- *. eapply After_event; [reflexivity|congruence|exact Hs2].
    + destruct t as [err|]; [contradiction|]. destruct evs'; [|contradiction].
      pose proof (strm_post _ _ _ _ _ _ X eq_refl eq_refl eq_refl) as HQ.
      exists (SSelectContent None), h', (inl (Some (VoidTag tag attrs))).
      split; [|split; [exact Hd'|]].
      * apply (expand_sk _ _ _ _ _ (SExpand None) (inl (Some (VoidTag tag attrs))))
          in E; [|congruence|reflexivity].
        unfold select_content_new. ne_by E.
      * eapply After_event; [reflexivity|congruence|].
        apply (strm_finish _ _ _ (SSelectContent None)); [intros; ne_now|exact HQ].
  - subst t. contradiction.
  - subst t. exists (SSelectContent None), h', (inr err). split; [|split; [exact Hd'|]].
    + apply (expand_sk _ _ _ _ _ (SExpand None) (inr err)) in E; [|congruence|reflexivity].
      unfold select_content_new. ne_by E.
    + now apply After_err.
Qed.
