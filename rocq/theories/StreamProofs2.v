(** The events produced by repetitions, attribute operations and selections. *)
From Coq Require Import String ZArith.
From stdpp Require Import gmap.
From Verif Require Import Text Event Input Parse Selector Machine StreamBase Trace.
From Verif Require Import TraceProofs StreamProofs.
Local Open Scope nat_scope.

(** Building adds streams that do [g]. *)
Definition Builds (g : trace -> trace) (bld : heap -> strm -> out strm) (e e' : bool) : Prop :=
  forall Q t s evs h, Strm e Q t s evs h -> Good e (evs, t) -> forall hf, hf ##ₘ h ->
  exists h' s', bld (hf ∪ h) s = Done (hf ∪ h') s' /\ hf ##ₘ h' /\
                Strm e' Q (snd (g (evs, t))) s' (fst (g (evs, t))) h'.
(** Errors are not lost. *)
Definition Strict (g : trace -> trace) (e : bool) : Prop :=
  forall evs err, Good e (evs, Some err) -> snd (g (evs, Some err)) <> None.

(** ** Repetition *)

Lemma remit_step t bs H H' s s' r : Ev (fun m => ne (run m) H s) H' (s', r) ->
  exists s1, Ev (fun m => ne (run m) H (SRepeat (Some (REmit t s bs)))) H' (s1, seq_result r) /\
             seq_state (fun s => SRepeat (Some (REmit t s bs)))
               (SRepeat (Some (RNext t bs))) s' s1 r.
Proof.
  intros E. destruct r as [[ev|]|err]; simpl.
  - eexists. split; [ne_by E|reflexivity].
  - eexists. split; [ne_by E|reflexivity].
  - exists (SRepeat None). split; [ne_by E|exact I].
Qed.

Lemma strm_next elem Q evs bs h : 
  Good elem (evs, None) ->
  (forall p, In p bs -> exists e', Builds (d_pipe p) (build p) elem e') -> Post Q h ->
  Strm false Q (snd (d_repeat (map (fun p x => d_pipe p x) bs) (evs, None)))
    (SRepeat (Some (RNext evs bs)))
    (fst (d_repeat (map (fun p x => d_pipe p x) bs) (evs, None))) h.
Proof.
  intros Hg. unfold d_repeat. cbn [snd]. revert h.
  induction bs as [|p bs IH]; intros h Hb HQ; cbn [map fold_right].
  - apply (strm_finish _ _ _ (SRepeat None)); auto. intros H. ne_now.
  - constructor; [discriminate|]. intros hf Hd.
    destruct (Hb p (or_introl eq_refl)) as [e' Hp].
    destruct (Hp Q None (STemplate evs 0) evs h) with (hf := hf) as (h' & s' & E & Hd' & Hs'); auto.
    { apply strm_template0; auto. now apply (good_no_noop elem (evs, None)). }
    exists (SRepeat (Some (REmit evs s' bs))), h', (inl (Some Noop)).
    split; [|split; [exact Hd'|]].
    + apply ne_intro. exists 0. intros m _. cbn [ne_body]. rewrite E. reflexivity.
    + apply After_noop. 
      rewrite (surjective_pairing (d_pipe p (evs, None))).
      rewrite (surjective_pairing (fold_right _ _ _)).
      apply (strm_seq (fun s => SRepeat (Some (REmit evs s bs))) (SRepeat (Some (RNext evs bs)))
               e' Q).
      * intros. now apply remit_step.
      * exact Hs'.
      * intros _ hq HQq. apply IH; [|now apply post_intro]. intros q Hq. apply Hb. now right.
      * discriminate.
Qed.

Lemma strm_repeat elem Q t s evs bs h :
  Strm elem Q t s evs h -> Good elem (evs, t) ->
  (forall p, In p bs -> exists e', Builds (d_pipe p) (build p) elem e') ->
  Strm false Q (snd (d_repeat (map (fun p x => d_pipe p x) bs) (evs, t)))
    (SRepeat (Some (RCollect s bs)))
    (fst (d_repeat (map (fun p x => d_pipe p x) bs) (evs, t))) h.
Proof.
  intros Hs Hg Hb. constructor; [discriminate|]. intros hf Hd.
  destruct (strm_co _ _ _ _ _ _ Hs hf [] Hd) as (h' & E & Hd' & HQ).
  destruct t as [err|]; simpl in *.
  - exists (SRepeat None), h', (inr err). split; [ne_by E|split; [exact Hd'|]].
    now apply After_err.
  - exists (SRepeat (Some (RNext evs bs))), h', (inl (Some Noop)).
    split; [ne_by E|split; [exact Hd'|]]. apply After_noop. eapply strm_next; eauto.
Qed.

(** ** Attributes *)

Lemma attr_emit_step H H' s s' r : Ev (fun m => ne (run m) H s) H' (s', r) ->
  exists s2, Ev (fun m => ne (run m) H (SAttr (Some (AEmit s)))) H' (s2, r) /\
             (forall ev, r = inl (Some ev) -> s2 = SAttr (Some (AEmit s'))).
Proof.
  intros E. destruct r as [[ev|]|err].
  - exists (SAttr (Some (AEmit s'))). split; [ne_by E|congruence].
  - exists (SAttr None). split; [ne_by E|congruence].
  - exists (SAttr None). split; [ne_by E|congruence].
Qed.

Lemma strm_attr Q t s evs h c : Strm true Q t s evs h -> Good true (evs, t) ->
  Strm true Q (snd (d_attr c (evs, t))) (SAttr (Some (AStart s c)))
    (fst (d_attr c (evs, t))) h.
Proof.
  intros Hs Hg. constructor.
  { intros _. destruct evs as [|[] evs]; simpl; try discriminate. }
  intros hf Hd.
  destruct (strm_sk _ _ _ _ _ _ Hs hf Hd) as (s' & h' & r & E & Hd' & HA).
  destruct HA as [ev evs' E1 E3 X|E1 E3 X|err E1 E3]; subst.
  - destruct ev; try (destruct t; contradiction); cbn [d_attr].
    + exists (SAttr (Some (AEmit s'))), h', (inl (Some (OpeningTag tag (apply_attr c attrs)))).
      split; [ne_by E|split; [exact Hd'|]]. eapply After_event; [reflexivity|congruence|].
      apply (strm_wrap (fun s => SAttr (Some (AEmit s)))); [|exact X].
      intros. now apply attr_emit_step.
    + exists (SAttr None), h', (inl (Some (SelfClosedTag tag (apply_attr c attrs)))).
      split; [ne_by E|split; [exact Hd'|]].
      destruct t as [err|]; [contradiction|]. destruct evs'; [|contradiction].
      eapply After_event; [reflexivity|congruence|].
      apply (strm_finish _ _ _ (SAttr None)); [intros; ne_now|].
      now apply (strm_post _ _ _ _ _ _ X).
    + exists (SAttr None), h', (inl (Some (VoidTag tag (apply_attr c attrs)))).
      split; [ne_by E|split; [exact Hd'|]].
      destruct t as [err|]; [contradiction|]. destruct evs'; [|contradiction].
      eapply After_event; [reflexivity|congruence|].
      apply (strm_finish _ _ _ (SAttr None)); [intros; ne_now|].
      now apply (strm_post _ _ _ _ _ _ X).
  - contradiction.
  - exists (SAttr None), h', (inr err). split; [ne_by E|split; [exact Hd'|]].
    now apply After_err.
Qed.

(** ** Single elements *)

(** The remaining events of the source stay in its cell. *)
Notation Rest l e Q t rest := (CellX l (Strm e Q t) rest).

Lemma strm_until elem Q t s evs h l tag : h !! l = None -> Strm elem Q t s evs h ->
  forall level,
  match d_until tag level evs with
  | Some (el, rest) =>
      Strm true (Rest l elem Q t rest) None
        (SSingle (Some (SEUntilClose tag (SShared l) level))) el (<[l := Cell s]> h)
  | None => t <> None -> forall Q',
      Strm true Q' t (SSingle (Some (SEUntilClose tag (SShared l) level))) evs (<[l := Cell s]> h)
  end.
Proof.
  intros Hl Hs. revert s evs h Hs Hl.
  apply (strm_ind _ _ _ (fun s evs h => h !! l = None -> forall level,
  match d_until tag level evs with
  | Some (el, rest) =>
      Strm true (Rest l elem Q t rest) None
        (SSingle (Some (SEUntilClose tag (SShared l) level))) el (<[l := Cell s]> h)
  | None => t <> None -> forall Q',
      Strm true Q' t (SSingle (Some (SEUntilClose tag (SShared l) level))) evs (<[l := Cell s]> h)
  end)).
  intros s evs h He Hs Hl level.
  assert (forall (Q' : heap -> Prop) t' evs',
    (evs' = [] -> t' <> None) -> 
    (forall s1 h1 r, h1 !! l = None -> 
      After Q t (fun s evs h => Strm elem Q t s evs h /\
          (h !! l = None -> forall level,
           match d_until tag level evs with
           | Some (el, rest) =>
             Strm true (Rest l elem Q t rest) None
              (SSingle (Some (SEUntilClose tag (SShared l) level))) el (<[l := Cell s]> h)
           | None => t <> None -> forall Q',
             Strm true Q' t (SSingle (Some (SEUntilClose tag (SShared l) level))) evs
                 (<[l := Cell s]> h)
           end)) evs s1 h1 r ->
      (forall ev, r = inl (Some ev) ->
         is_opening_tag_for ev tag = true ->
         After Q' t' (Strm true Q' t') evs'
            (SSingle (Some (SEUntilClose tag (SShared l) (S level)))) (<[l := Cell s1]> h1) r) /\
      (forall ev, r = inl (Some ev) ->
         is_opening_tag_for ev tag = false ->
         is_closing_tag_for ev tag = true ->
         After Q' t' (Strm true Q' t') evs'
            (SSingle (match level with O => None
                      | S level => Some (SEUntilClose tag (SShared l) level) end))
            (<[l := Cell s1]> h1) r) /\
      (forall ev, r = inl (Some ev) ->
         is_opening_tag_for ev tag = false ->
         is_closing_tag_for ev tag = false ->
         After Q' t' (Strm true Q' t') evs'
            (SSingle (Some (SEUntilClose tag (SShared l) level))) (<[l := Cell s1]> h1) r) /\
      r <> inl None /\
      (forall err, r = inr err ->
         After Q' t' (Strm true Q' t') evs' (SSingle None) (<[l := Cell s1]> h1) r)) ->
    Strm true Q' t' (SSingle (Some (SEUntilClose tag (SShared l) level))) evs' (<[l := Cell s]> h))
    as Hgo.
  { intros Q' t' evs' Hne HK. constructor; [intros _ Ht' Hev; now destruct (Hne Hev)|].
    intros hf Hd.
    destruct (shared_step _ _ _ _ Hl Hs hf Hd) as (s' & h' & r & E & Hd' & -> & s1 & h1 & -> & Hl1 & HA).
    destruct (HK _ _ _ Hl1 HA) as (K1 & K2 & K3 & K4 & K5).
    destruct r as [[ev|]|err].
    - destruct (is_opening_tag_for ev tag) eqn:Eo; [|destruct (is_closing_tag_for ev tag) eqn:Ec].
      + eexists _, _, _. split; [|split; [exact Hd'|apply (K1 _ eq_refl Eo)]].
        destruct E as [n Hn]. apply ne_intro. exists n. intros m Hm. cbn [ne_body]. unfold on_ok.
        rewrite Hn by auto. cbn [obind]. rewrite Eo. reflexivity.
      + eexists _, _, _. split; [|split; [exact Hd'|apply (K2 _ eq_refl Eo Ec)]].
        destruct E as [n Hn]. apply ne_intro. exists n. intros m Hm. cbn [ne_body]. unfold on_ok.
        rewrite Hn by auto. cbn [obind]. rewrite Eo, Ec. destruct level; reflexivity.
      + eexists _, _, _. split; [|split; [exact Hd'|apply (K3 _ eq_refl Eo Ec)]].
        destruct E as [n Hn]. apply ne_intro. exists n. intros m Hm. cbn [ne_body]. unfold on_ok.
        rewrite Hn by auto. cbn [obind]. rewrite Eo, Ec. reflexivity.
    - congruence.
    - eexists _, _, _. split; [|split; [exact Hd'|apply (K5 _ eq_refl)]].
      destruct E as [n Hn]. apply ne_intro. exists n. intros m Hm. cbn [ne_body]. unfold on_ok.
      rewrite Hn by auto. reflexivity. }
  destruct (d_until tag level evs) as [[el rest]|] eqn:Eu.
  - apply Hgo.
    { intros ->. destruct evs as [|ev evs]; [discriminate|]. simpl in Eu.
      destruct (is_opening_tag_for ev tag).
      - destruct (d_until tag (S level) evs) as [[]|]; discriminate.
      - destruct (is_closing_tag_for ev tag).
        + destruct level; [discriminate|]. destruct (d_until tag level evs) as [[]|]; discriminate.
        + destruct (d_until tag level evs) as [[]|]; discriminate. }
    intros s1 h1 r Hl1 HA. destruct HA as [[X Y]|ev evs' E1 E3 [X Y]|E1 E3 X|err E1 E3].
    + specialize (Y Hl1 level). rewrite Eu in Y. repeat split; try congruence.
      * intros ev [= <-]. discriminate.
      * intros ev [= <-]. discriminate.
      * intros ev [= <-] _ _. now apply After_noop.
    + subst evs. cbn [d_until] in Eu. repeat split; try congruence.
      * intros ev' [= <-] Eo. rewrite Eo in Eu. specialize (Y Hl1 (S level)).
        destruct (d_until tag (S level) evs') as [[el' rest']|]; [|discriminate].
        injection Eu as <- <-. eapply After_event; eauto.
      * intros ev' [= <-] Eo Ec. rewrite Eo, Ec in Eu. destruct level as [|level].
        -- injection Eu as <- <-. eapply After_event; eauto.
           apply (strm_finish _ _ _ (SSingle None)); [intros; ne_now|].
           apply post_intro. exists s1, h1. auto.
        -- specialize (Y Hl1 level).
           destruct (d_until tag level evs') as [[el' rest']|]; [|discriminate].
           injection Eu as <- <-. eapply After_event; eauto.
      * intros ev' [= <-] Eo Ec. rewrite Eo, Ec in Eu. specialize (Y Hl1 level).
        destruct (d_until tag level evs') as [[el' rest']|]; [|discriminate].
        injection Eu as <- <-. eapply After_event; eauto.
    + subst. discriminate.
    + subst. discriminate.
  - intros Ht Q'. apply Hgo; [auto|].
    intros s1 h1 r Hl1 HA. destruct HA as [[X Y]|ev evs' E1 E3 [X Y]|E1 E3 X|err E1 E3].
    + specialize (Y Hl1 level). rewrite Eu in Y. repeat split; try congruence.
      * intros ev [= <-]. discriminate.
      * intros ev [= <-]. discriminate.
      * intros ev [= <-] _ _. apply After_noop. auto.
    + subst evs. cbn [d_until] in Eu. repeat split; try congruence.
      * intros ev' [= <-] Eo. rewrite Eo in Eu. specialize (Y Hl1 (S level)).
        destruct (d_until tag (S level) evs') as [[el' rest']|]; [discriminate|].
        eapply After_event; eauto.
      * intros ev' [= <-] Eo Ec. rewrite Eo, Ec in Eu. destruct level as [|level].
        -- discriminate.
        -- specialize (Y Hl1 level).
           destruct (d_until tag level evs') as [[el' rest']|]; [discriminate|].
           eapply After_event; eauto.
      * intros ev' [= <-] Eo Ec. rewrite Eo, Ec in Eu. specialize (Y Hl1 level).
        destruct (d_until tag level evs') as [[el' rest']|]; [discriminate|].
        eapply After_event; eauto.
    + congruence.
    + repeat split; try congruence. intros err' [= <-]. now apply After_err.
Qed.

Lemma strm_single elem Q t s ev rest h l st st' :
  h !! l = None -> Strm elem Q t s rest h ->
  nest st (ev :: rest) = Some st' -> (t = None -> st' = []) ->
  let '(x, rest') := d_single ev rest t in
  Strm true (Rest l elem Q t rest') (snd x) (SSingle (Some (SEStart ev (SShared l)))) (fst x)
    (<[l := Cell s]> h).
Proof.
  intros Hl Hs Hn Ht. pose proof (single_good st ev rest st' t Hn Ht) as Hsg.
  assert (Post (Rest l elem Q t rest) (<[l := Cell s]> h)) as Hpost.
  { apply post_intro. exists s, h. auto. }
  destruct ev; simpl in Hsg |- *;
    try (apply (strm_error _ _ _ (SSingle None)); intros; ne_now).
  - pose proof (strm_until elem Q t s rest h l tag Hl Hs 0) as Hu.
    destruct (d_until tag 0 rest) as [[el rest']|] eqn:E; simpl.
    + constructor; [discriminate|]. intros hf Hd.
      eexists _, _, _. split; [ne_now|split; [exact Hd|]].
      eapply After_event; [reflexivity|congruence|exact Hu].
    + destruct t as [err|].
      * constructor; [discriminate|]. intros hf Hd.
        eexists _, _, _. split; [ne_now|split; [exact Hd|]].
        eapply After_event; [reflexivity|congruence|apply Hu; discriminate].
      * exfalso. pose proof (until_nest tag st rest [] st') as Hu2. simpl in Hn, Hu2.
        destruct (valid_start tag attrs); [|discriminate]. specialize (Hu2 Hn). rewrite E in Hu2.
        destruct Hu2 as (i & _ & ->). destruct i; discriminate Ht; reflexivity.
  - constructor; [discriminate|]. intros hf Hd.
    eexists _, _, _. split; [ne_now|split; [exact Hd|]].
    eapply After_event; [reflexivity|congruence|].
    apply (strm_finish _ _ _ (SSingle None)); [intros; ne_now|exact Hpost].
  - constructor; [discriminate|]. intros hf Hd.
    eexists _, _, _. split; [ne_now|split; [exact Hd|]].
    eapply After_event; [reflexivity|congruence|].
    apply (strm_finish _ _ _ (SSingle None)); [intros; ne_now|exact Hpost].
Qed.
