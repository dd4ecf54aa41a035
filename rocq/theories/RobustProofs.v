(** Every stream stops, whatever the events of its source are.

    [Strm] (StreamBase.v) describes the streams of well nested events and says which
    events they produce.  Here nothing is assumed about the events, so selections may cut
    the source anywhere, and streams may be asked again after their end; all that is
    shown is that every call returns and that no stream goes on forever. *)
From Coq Require Import String ZArith.
From stdpp Require Import gmap.
From Verif Require Import Text Event Input Parse Selector Machine StreamBase StreamProofs
  SpecTransform Trace FuelProofs Template.
Local Open Scope nat_scope.

(** ** Streams that stop *)

(** The stream has ended and stays ended; [Q] holds of the heap and [P] of the stream. *)
Definition Dead (Q : heap -> Prop) (P : strm -> heap -> Prop) (s : strm) (h : heap) : Prop :=
  exists I : strm -> heap -> Prop, I s h /\
    forall s h, I s h ->
      Post Q h /\ P s h /\ StepF NE h s (fun s' h' r => r = inl None /\ I s' h').

Definition Next (X D : strm -> heap -> Prop) (s : strm) (h : heap) (r : stream_result) : Prop :=
  match r with
  | inl (Some _) => X s h
  | inl None => D s h
  | inr _ => True
  end.

(** The same as an inductive definition, for the next one. *)
Inductive NextI (X D : strm -> heap -> Prop) (s : strm) (h : heap) : stream_result -> Prop :=
| NextI_event ev : X s h -> NextI X D s h (inl (Some ev))
| NextI_end : D s h -> NextI X D s h (inl None)
| NextI_error err : NextI X D s h (inr err).

(** The stream produces finitely many events and then has ended, or fails; [Q] and [P]
    hold all the time. *)
Inductive Run (Q : heap -> Prop) (P : strm -> heap -> Prop) : strm -> heap -> Prop :=
| Run_dead s h : Dead Q P s h -> Run Q P s h
| Run_ne s h : Post Q h -> P s h ->
    StepF NE h s (NextI (Run Q P) (Dead Q P)) -> Run Q P s h.

Definition Any (_ : strm) (_ : heap) : Prop := True.
Notation Runs Q := (Run Q Any).

Lemma nextI_iff X D s h r : NextI X D s h r <-> Next X D s h r.
Proof.
  split.
  - intros []; simpl; auto.
  - destruct r as [[ev|]|err]; simpl; intros; now constructor.
Qed.
Lemma Run_step Q (P : strm -> heap -> Prop) s h : Post Q h -> P s h ->
  StepF NE h s (Next (Run Q P) (Dead Q P)) -> Run Q P s h.
Proof.
  intros HQ HP Hs. apply Run_ne; auto. eapply stepF_mono; [|exact Hs].
  intros. now apply nextI_iff.
Qed.

Lemma run_ind Q P (X : strm -> heap -> Prop) :
  (forall s h, Dead Q P s h -> X s h) ->
  (forall s h, Post Q h -> P s h ->
     StepF NE h s (Next (fun s h => Run Q P s h /\ X s h) (Dead Q P)) -> X s h) ->
  forall s h, Run Q P s h -> X s h.
Proof.
  intros HD IH. fix F 3. intros s h [s0 h0 Hd|s0 h0 HQ HP Hs].
  - now apply HD.
  - apply IH; [exact HQ|exact HP|]. intros hf Hdj.
    destruct (Hs hf Hdj) as (s' & h' & r & E & Hd' & HA).
    exists s', h', r. split; [exact E|split; [exact Hd'|]].
    destruct HA as [ev HA|HA|err]; cbn [Next]; [|exact HA|exact I].
    split; [exact HA|apply F; exact HA].
Qed.

Lemma dead_step Q P s h : Dead Q P s h ->
  StepF NE h s (fun s' h' r => r = inl None /\ Dead Q P s' h').
Proof.
  intros (I & Hi & HI). eapply stepF_mono; [|apply (HI _ _ Hi)].
  intros s' h' r [-> H']. split; [reflexivity|]. exists I. auto.
Qed.
Lemma dead_post Q P s h : Dead Q P s h -> Post Q h.
Proof. intros (I & Hi & HI). apply (HI _ _ Hi). Qed.
Lemma dead_pred Q P s h : Dead Q P s h -> P s h.
Proof. intros (I & Hi & HI). apply (HI _ _ Hi). Qed.

Lemma run_post Q P s h : Run Q P s h -> Post Q h.
Proof. intros []; [eapply dead_post; eauto|assumption]. Qed.
Lemma run_pred Q P s h : Run Q P s h -> P s h.
Proof. intros []; [eapply dead_pred; eauto|assumption]. Qed.
Lemma run_next Q P s h : Run Q P s h -> StepF NE h s (Next (Run Q P) (Dead Q P)).
Proof.
  intros [s0 h0 Hd|s0 h0 HQ HP Hs].
  2:{ eapply stepF_mono; [|exact Hs]. intros. now apply nextI_iff. }
  eapply stepF_mono; [|apply dead_step; exact Hd]. intros s' h' r [-> H']. exact H'.
Qed.

(** A stream that has ended and does not touch the heap. *)
Definition Over (s : strm) : Prop := forall H, Ev (fun m => ne (run m) H s) H (s, inl None).

Lemma over_dead Q s h : Over s -> Post Q h -> Dead Q Any s h.
Proof.
  intros Ho HQ. exists (fun s' h' => s' = s /\ Post Q h'). split; [auto|].
  intros s' h' [-> HQ']. split; [exact HQ'|split; [exact I|]].
  intros hf Hd. exists s, h', (inl None). split; [apply Ho|auto].
Qed.

Lemma run_mono Q s h : Runs Q s h -> forall h2, h ⊆ h2 -> Runs Q s h2.
Proof.
  revert s h. apply (run_ind Q Any (fun s h => forall h2, h ⊆ h2 -> Runs Q s h2)).
  - intros s h (I & Hi & HI) h2 Hsub. apply Run_dead.
    exists (fun s h2 => exists h, h ⊆ h2 /\ I s h). split; [eauto|].
    intros s' h2' (h' & Hsub' & Hi'). destruct (HI _ _ Hi') as (HQ & _ & Hs).
    split; [eapply post_mono; eauto|split; [exact Logic.I|]].
    eapply stepF_mono; [|eapply stepF_frame; eauto].
    intros s3 h3 r (h4 & Hsub3 & -> & Hi3). eauto.
  - intros s h HQ _ Hs h2 Hsub. apply Run_step; [eapply post_mono; eauto|exact I|].
    eapply stepF_mono; [|eapply stepF_frame; eauto].
    intros s' h2' r (h' & Hsub' & HA). destruct r as [[ev|]|err]; cbn [Next] in *; [|  |exact I].
    + now apply HA.
    + destruct HA as (I & Hi & HI).
      exists (fun s h2 => exists h, h ⊆ h2 /\ I s h). split; [eauto|].
      intros s3 h3 (h4 & Hsub4 & Hi4). destruct (HI _ _ Hi4) as (HQ4 & _ & Hs4).
      split; [eapply post_mono; eauto|split; [exact Logic.I|]].
      eapply stepF_mono; [|eapply stepF_frame; eauto].
      intros s5 h5 r5 (h6 & Hsub6 & -> & Hi6). eauto.
Qed.

(** ** Skipping [Noop]s *)

Lemma dead_sk Q P s h : Dead Q P s h ->
  StepF SK h s (fun s' h' r => r = inl None /\ Dead Q P s' h').
Proof.
  intros H hf Hd. destruct (dead_step _ _ _ _ H hf Hd) as (s' & h' & r & E & Hd' & -> & H').
  exists s', h', (inl None). split; [|auto]. apply sk_ret; [discriminate|exact E].
Qed.

(** Induction, looking one [next_event] and one [next_event_skip_noop] ahead. *)
Lemma run_ind_both Q P (X : strm -> heap -> Prop) :
  (forall s h, Dead Q P s h -> X s h) ->
  (forall s h, Post Q h -> P s h ->
     StepF NE h s (Next (fun s h => Run Q P s h /\ X s h) (Dead Q P)) ->
     StepF SK h s (Next (fun s h => Run Q P s h /\ X s h) (Dead Q P)) -> X s h) ->
  forall s h, Run Q P s h ->
  X s h /\ StepF SK h s (Next (fun s h => Run Q P s h /\ X s h) (Dead Q P)).
Proof.
  intros HD HX. apply run_ind.
  - intros s h H. split; [now apply HD|].
    eapply stepF_mono; [|apply dead_sk; exact H]. intros s' h' r [-> H']. exact H'.
  - intros s h HQ HP Hs.
    assert (StepF SK h s (Next (fun s h => Run Q P s h /\ X s h) (Dead Q P))) as Hsk.
    { intros hf Hd. destruct (Hs hf Hd) as (s' & h' & r & E & Hd' & HA).
      assert (r = inl (Some Noop) \/ r <> inl (Some Noop)) as [->|Hn].
      { destruct r as [[[]|]|]; auto; right; discriminate. }
      - destruct HA as (_ & _ & Hsk). destruct (Hsk hf Hd') as (s2 & h2 & r2 & E2 & Hd2 & HA2).
        exists s2, h2, r2. split; [|auto].
        exact (sk_noop _ _ _ _ (hf ∪ h2, (s2, r2)) E E2).
      - exists s', h', r. split; [now apply sk_ret|split; [exact Hd'|]].
        destruct r as [[ev|]|err]; cbn [Next] in *; [|exact HA|exact I].
        split; apply HA. }
    split; [|exact Hsk]. apply HX; auto. eapply stepF_mono; [|exact Hs].
    intros s' h' r HA. destruct r as [[ev|]|err]; cbn [Next] in *; [|exact HA|exact I].
    split; apply HA.
Qed.

Lemma run_ind_sk Q P (X : strm -> heap -> Prop) :
  (forall s h, Dead Q P s h -> X s h) ->
  (forall s h, Post Q h -> P s h ->
     StepF SK h s (Next (fun s h => Run Q P s h /\ X s h) (Dead Q P)) -> X s h) ->
  forall s h, Run Q P s h -> X s h.
Proof.
  intros HD HX s h Hr. apply (run_ind_both Q P X) in Hr; [apply Hr|exact HD|auto].
Qed.
Lemma run_sk Q P s h : Run Q P s h -> StepF SK h s (Next (Run Q P) (Dead Q P)).
Proof.
  intros Hr. apply (run_ind_both Q P Any) in Hr; [|easy|easy].
  eapply stepF_mono; [|apply Hr]. intros s' h' r HA.
  destruct r as [[ev|]|err]; cbn [Next] in *; [|exact HA|exact I]. apply HA.
Qed.

(** A property of all states is shown by looking one [next_event_skip_noop] ahead. *)
Lemma run_strengthen Q P (X : strm -> heap -> Prop) :
  (forall s h, Dead Q P s h -> X s h) ->
  (forall s h, Post Q h -> P s h ->
     StepF SK h s (Next (Run Q (fun s h => P s h /\ X s h)) (Dead Q P)) -> X s h) ->
  forall s h, Run Q P s h -> Run Q (fun s h => P s h /\ X s h) s h.
Proof.
  intros HD HX. set (PX := fun s h => P s h /\ X s h).
  assert (forall s h, Dead Q P s h -> Dead Q PX s h) as HDX.
  { intros s h H. exists (Dead Q P). split; [exact H|]. intros s' h' H'.
    split; [eapply dead_post; eauto|split; [split; [eapply dead_pred; eauto|auto]|]].
    now apply dead_step. }
  intros s h Hr. apply (run_ind_both Q P (Run Q PX)) in Hr; [apply Hr| |].
  - intros. now apply Run_dead, HDX.
  - clear s h Hr. intros s h HQ HP Hne Hsk. apply Run_step; [exact HQ|split; [exact HP|]|].
    + apply HX; auto. eapply stepF_mono; [|exact Hsk]. intros s' h' r HA.
      destruct r as [[ev|]|err]; cbn [Next] in *; [apply HA|exact HA|exact I].
    + eapply stepF_mono; [|exact Hne]. intros s' h' r HA.
      destruct r as [[ev|]|err]; cbn [Next] in *; [apply HA|now apply HDX|exact I].
Qed.

(** The property [Q] may be that the stream itself stops. *)
Lemma run_self Q (P : strm -> heap -> Prop) l h : (forall s h, P s h -> s = SShared l) -> Run Q P (SShared l) h ->
  Runs (Run Q P (SShared l)) (SShared l) h.
Proof.
  intros HP Hr0.
  assert (forall s h, Run Q P s h -> Runs (Run Q P (SShared l)) s h) as G; [|now apply G].
  clear h Hr0.
  assert (forall s h, Dead Q P s h -> Dead (Run Q P (SShared l)) Any s h) as HDX.
  { intros s h H. exists (Dead Q P). split; [exact H|]. intros s' h' H'.
    split; [|split; [exact I|now apply dead_step]]. apply post_intro.
    rewrite <- (HP s' h') by (eapply dead_pred; eauto). now apply Run_dead. }
  intros s h H. pose proof H as H0. revert s h H H0.
  apply (run_ind Q P (fun s h => Run Q P s h -> Runs (Run Q P (SShared l)) s h)).
  - intros. now apply Run_dead, HDX.
  - intros s h HQ Hp Hs Hr. apply Run_step; [|exact I|].
    + apply post_intro. now rewrite <- (HP s h).
    + eapply stepF_mono; [|exact Hs]. intros s' h' r HA.
      destruct r as [[ev|]|err]; cbn [Next] in *; [now apply HA|now apply HDX|exact I].
Qed.

(** ** Streams around another stream *)

(** [w] is a stream around [s] that takes its next event from [s]; what it does with the
    result. *)
Definition Wrapped (J : strm -> strm -> Prop) (N : strm -> Prop) (s w : strm)
    (r r' : stream_result) : Prop :=
  match r' with
  | inr _ => True
  | inl None => Over w /\ forall err, r <> inr err
  | inl (Some _) =>
      match r with
      | inl (Some _) => J s w \/ Over w
      | inl None => N w
      | inr _ => False
      end
  end.

Definition Wraps (f : nat -> heap -> strm -> step_out) (J : strm -> strm -> Prop)
    (N : strm -> Prop) : Prop :=
  forall s w H H' s' r, J s w -> Ev (fun m => f m H s) H' (s', r) ->
    exists w' r', Ev (fun m => ne (run m) H w) H' (w', r') /\ Wrapped J N s' w' r r'.

Lemma wrap_step f (Q1 Q : heap -> Prop) (J : strm -> strm -> Prop) (N : strm -> Prop) s w h :
  (forall h, Q1 h -> Post Q h) ->
  (forall w h, N w -> Post Q1 h -> Runs Q w h) ->
  Wraps f J N -> J s w -> Post Q1 h ->
  StepF f h s (Next (fun s h => Runs Q1 s h /\ forall w, J s w -> Runs Q w h) (Dead Q1 Any)) ->
  Runs Q w h.
Proof.
  intros HQ HN HJ Hj Hp Hs. apply Run_step; [eapply post_bind; eauto|exact I|].
  intros hf Hd. destruct (Hs hf Hd) as (s' & h' & r & E & Hd' & HA).
  destruct (HJ _ _ _ _ _ _ Hj E) as (w' & r' & E' & HW).
  exists w', h', r'. split; [exact E'|split; [exact Hd'|]].
  destruct r' as [[ev'|]|err']; cbn [Next Wrapped] in *; [| |exact I].
  - destruct r as [[ev|]|err]; [| |contradiction].
    + destruct HA as [Hr HA]. destruct HW as [HW|HW]; [now apply HA|].
      apply Run_dead, over_dead; [exact HW|]. eapply post_bind; [exact HQ|].
      eapply run_post; eauto.
    + apply HN; [exact HW|]. eapply dead_post; eauto.
  - destruct HW as [HW Hne]. apply over_dead; [exact HW|]. eapply post_bind; [exact HQ|].
    destruct r as [[ev|]|err]; [|eapply dead_post; eauto|now destruct (Hne err)].
    eapply run_post, HA.
Qed.

Lemma run_wrap (Q1 Q : heap -> Prop) (J : strm -> strm -> Prop) (N : strm -> Prop) s w h :
  (forall h, Q1 h -> Post Q h) ->
  (forall w h, N w -> Post Q1 h -> Runs Q w h) ->
  Wraps NE J N -> J s w -> Runs Q1 s h -> Runs Q w h.
Proof.
  intros HQ HN HJ Hj Hr. revert w Hj. revert s h Hr.
  apply (run_ind Q1 Any (fun s h => forall w, J s w -> Runs Q w h)).
  - intros s h HD w Hj. eapply (wrap_step NE Q1 Q J N s w h); eauto.
    + eapply dead_post; eauto.
    + eapply stepF_mono; [|apply dead_step; exact HD]. intros s' h' r [-> H']. exact H'.
  - intros s h Hp _ Hs w Hj. eapply (wrap_step NE Q1 Q J N s w h); eauto.
Qed.
Lemma run_wrap_sk (Q1 Q : heap -> Prop) (J : strm -> strm -> Prop) (N : strm -> Prop) s w h :
  (forall h, Q1 h -> Post Q h) ->
  (forall w h, N w -> Post Q1 h -> Runs Q w h) ->
  Wraps SK J N -> J s w -> Runs Q1 s h -> Runs Q w h.
Proof.
  intros HQ HN HJ Hj Hr. revert w Hj. revert s h Hr.
  apply (run_ind_sk Q1 Any (fun s h => forall w, J s w -> Runs Q w h)).
  - intros s h HD w Hj. eapply (wrap_step SK Q1 Q J N s w h); eauto.
    + eapply dead_post; eauto.
    + eapply stepF_mono; [|apply dead_sk; exact HD]. intros s' h' r [-> H']. exact H'.
  - intros s h Hp _ Hs w Hj. eapply (wrap_step SK Q1 Q J N s w h); eauto.
Qed.

(** One step that does not touch the heap. *)
Lemma run_emit Q s s' ev h :
  (forall H, Ev (fun m => ne (run m) H s) H (s', inl (Some ev))) -> Runs Q s' h -> Runs Q s h.
Proof.
  intros Hs Hr. apply Run_step; [eapply run_post; eauto|exact I|].
  intros hf Hd. exists s', h, (inl (Some ev)). auto.
Qed.
Lemma run_over Q s h : Over s -> Post Q h -> Runs Q s h.
Proof. intros. now apply Run_dead, over_dead. Qed.
Lemma run_finish Q s s' h :
  (forall H, Ev (fun m => ne (run m) H s) H (s', inl None)) -> Over s' -> Post Q h -> Runs Q s h.
Proof.
  intros Hs Ho HQ. apply Run_step; [exact HQ|exact I|].
  intros hf Hd. exists s', h, (inl None). split; [auto|split; [auto|]]. now apply over_dead.
Qed.
Lemma run_fail Q s s' err h :
  (forall H, Ev (fun m => ne (run m) H s) H (s', inr err)) -> Post Q h -> Runs Q s h.
Proof.
  intros Hs HQ. apply Run_step; [exact HQ|exact I|].
  intros hf Hd. exists s', h, (inr err). split; [auto|split; [auto|exact I]].
Qed.

Ltac over := let H := fresh in intros H; ne_now.

(** ** Sources *)

Lemma run_template Q evs i h : Post Q h -> Runs Q (STemplate evs i) h.
Proof.
  intros HQ. remember (length evs - i) as n eqn:En. revert i En.
  induction n as [|n IH]; intros i En; destruct (nth_error evs i) as [ev|] eqn:E.
  - assert (i < length evs) by (apply nth_error_Some; congruence). lia.
  - apply run_over; [|exact HQ]. intros H. apply ne_intro. exists 0. intros m _. cbn [ne_body].
    now rewrite E.
  - apply (run_emit _ _ (STemplate evs (S i)) ev).
    + intros H. apply ne_intro. exists 0. intros m _. cbn [ne_body]. now rewrite E.
    + apply IH. assert (i < length evs) by (apply nth_error_Some; congruence). lia.
  - apply nth_error_None in E. lia.
Qed.
Lemma run_user Q evs stop h : Post Q h -> Runs Q (SUser evs stop) h.
Proof.
  intros HQ. induction evs as [|ev evs IH].
  - destruct stop as [err|].
    + apply (run_fail _ _ (SUser [] None) err); [over|exact HQ].
    + apply run_over; [over|exact HQ].
  - apply (run_emit _ _ (SUser evs stop) ev); [over|exact IH].
Qed.
Lemma run_content_none Q d h : Post Q h -> Runs Q (SContent d) h.
Proof.
  intros HQ. assert (Runs Q (SContent None) h) as Hn by (apply run_over; [over|exact HQ]).
  destruct d as [d|]; [|exact Hn]. apply (run_emit _ _ (SContent None) (Data d)); [over|exact Hn].
Qed.

(** ** Simple streams *)

Ltac wraps E :=
  let n := fresh "n" in let Hn := fresh "Hn" in
  destruct E as [n Hn]; eexists _, _; split;
  [apply ne_intro; exists n; intros ? ?; cbn [ne_body];
   unfold passthrough, on_ok; rewrite Hn by assumption; reflexivity|].

Lemma run_pass (C : strm -> strm) (D : strm) Q s h :
  (forall e h s, ne_body e h (C s) = passthrough (ne e h s) D C) -> Over D ->
  Runs Q s h -> Runs Q (C s) h.
Proof.
  intros HC HD. apply (run_wrap Q Q (fun s w => w = C s) (fun _ => False)); auto.
  - intros. now apply post_intro.
  - contradiction.
  - intros s0 w H H' s' r -> [n Hn].
    exists (match r with inl (Some _) => C s' | _ => D end), r. split.
    + apply ne_intro. exists n. intros m Hm. rewrite HC. unfold passthrough, on_ok.
      rewrite Hn by auto. now destruct r as [[]|].
    + destruct r as [[ev|]|err]; simpl; auto.
Qed.

Lemma run_fallible_emit Q s h : Runs Q s h -> Runs Q (SFallible (Some (FEmit s))) h.
Proof. apply (run_pass (fun s => SFallible (Some (FEmit s))) (SFallible None)); [reflexivity|over]. Qed.
Lemma run_fallible Q s h : Runs Q s h -> Runs Q (fallible_new (inl s)) h.
Proof.
  intros Hr. apply (run_emit _ _ (SFallible (Some (FEmit s))) Noop); [over|].
  now apply run_fallible_emit.
Qed.
Lemma run_failed Q e h : Post Q h -> Runs Q (fallible_new (inr e)) h.
Proof. intros. apply (run_fail _ _ (SFallible None) e); [over|assumption]. Qed.

Lemma run_into_stream Q c h : Post Q h -> Runs Q (into_stream c) h.
Proof.
  intros HQ. revert c. fix F 1. intros [evs|d|v|s|z|evs stop|[c|e]]; cbn [into_stream].
  - now apply run_template.
  - now apply run_content_none.
  - now apply run_content_none.
  - now apply run_content_none.
  - now apply run_content_none.
  - now apply run_user.
  - now apply run_fallible.
  - now apply run_failed.
Qed.

Lemma run_either Q b s h : Runs Q s h -> Runs Q (SApplyEither b s) h.
Proof.
  assert (forall H H' s s' r, Ev (fun m => ne (run m) H s) H' (s', r) ->
            Ev (fun m => ne (run m) H (SApplyEither b s)) H' (SApplyEither b s', r)) as HE.
  { intros H H' s0 s' r [n Hn]. apply ne_intro. exists n. intros m Hm. cbn [ne_body].
    now rewrite Hn by auto. }
  assert (forall s h, Dead Q Any s h -> Dead Q Any (SApplyEither b s) h) as HDX.
  { intros s0 h0 HD. exists (fun w h => exists s, w = SApplyEither b s /\ Dead Q Any s h).
    split; [eauto|]. intros w h1 (s1 & -> & H1). split; [eapply dead_post; eauto|split; [exact I|]].
    intros hf Hd. destruct (dead_step _ _ _ _ H1 hf Hd) as (s' & h' & r & E & Hd' & -> & H').
    eexists _, _, _. split; [apply HE; exact E|]. eauto. }
  revert s h. apply run_ind.
  - intros. now apply Run_dead, HDX.
  - intros s h HQ _ Hs. apply Run_step; [exact HQ|exact I|]. intros hf Hd.
    destruct (Hs hf Hd) as (s' & h' & r & E & Hd' & HA).
    eexists _, _, _. split; [apply HE; exact E|split; [exact Hd'|]].
    destruct r as [[ev|]|err]; cbn [Next] in *; [apply HA|now apply HDX|exact I].
Qed.

Lemma run_peek Q s b h : Runs Q s h -> Runs Q (SPeek s b) h.
Proof.
  assert (forall H H' s s' r, Ev (fun m => sk (run m) H s) H' (s', r) ->
            Ev (fun m => ne (run m) H (SPeek s None)) H' (SPeek s' None, r)) as HE.
  { intros H H' s0 s' r [n Hn]. apply ne_intro. exists n. intros m Hm. cbn [ne_body].
    unfold on_ok. rewrite Hn by auto. now destruct r as [[]|]. }
  assert (forall s h, Dead Q Any s h -> Dead Q Any (SPeek s None) h) as HDX.
  { intros s0 h0 HD. exists (fun w h => exists s, w = SPeek s None /\ Dead Q Any s h).
    split; [eauto|]. intros w h1 (s1 & -> & H1). split; [eapply dead_post; eauto|split; [exact I|]].
    intros hf Hd. destruct (dead_sk _ _ _ _ H1 hf Hd) as (s' & h' & r & E & Hd' & -> & H').
    eexists _, _, _. split; [apply HE; exact E|]. eauto. }
  assert (forall s h, Runs Q s h -> Runs Q (SPeek s None) h) as Hn.
  { apply run_ind_sk.
    - intros. now apply Run_dead, HDX.
    - intros s1 h1 HQ _ Hs. apply Run_step; [exact HQ|exact I|]. intros hf Hd.
      destruct (Hs hf Hd) as (s' & h' & r & E & Hd' & HA).
      eexists _, _, _. split; [apply HE; exact E|split; [exact Hd'|]].
      destruct r as [[ev|]|err]; cbn [Next] in *; [apply HA|now apply HDX|exact I]. }
  intros Hr. destruct b as [ev|]; [|now apply Hn].
  apply (run_emit _ _ (SPeek s None) ev); [over|now apply Hn].
Qed.

Lemma run_remove Q s h : Runs Q s h -> Runs Q (SRemove s) h.
Proof.
  assert (forall s h, Dead Q Any s h -> Dead Q Any (SRemove s) h) as HDX.
  { intros s0 h0 HD. exists (fun w h => exists s, w = SRemove s /\ Dead Q Any s h).
    split; [eauto|]. intros w h1 (s1 & -> & H1). split; [eapply dead_post; eauto|split; [exact I|]].
    intros hf Hd. destruct (dead_step _ _ _ _ H1 hf Hd) as (s' & h' & r & [n Hn] & Hd' & -> & H').
    exists (SRemove s'), h', (inl None). split; [|eauto].
    apply ne_intro. exists (S n). intros [|m] Hm; [lia|]. cbn [ne_body run dr].
    unfold dr_body. now rewrite Hn by lia. }
  assert (forall s h, Runs Q s h -> Post Q h /\
    StepF DR h s (fun s' h' r => match r with
      | inl (Some _) => False
      | inl None => Dead Q Any s' h'
      | inr _ => True
      end)) as Hdr.
  { apply run_ind.
    - intros s1 h1 HD. split; [eapply dead_post; eauto|]. intros hf Hd.
      destruct (dead_step _ _ _ _ HD hf Hd) as (s' & h' & r & [n Hn] & Hd' & -> & H').
      exists (SRemove s'), h', (inl None). split; [|auto].
      exists (S n). intros [|m] Hm; [lia|]. cbn [run dr]. unfold dr_body. now rewrite Hn by lia.
    - intros s1 h1 HQ _ Hs. split; [exact HQ|]. intros hf Hd.
      destruct (Hs hf Hd) as (s' & h' & r & [n Hn] & Hd' & HA).
      destruct r as [[ev|]|err]; cbn [Next] in HA.
      + destruct HA as (_ & _ & HA). destruct (HA hf Hd') as (s2 & h2 & r2 & [n2 Hn2] & Hd2 & HA2).
        exists s2, h2, r2. split; [|auto]. exists (S (max n n2)). intros [|m] Hm; [lia|].
        cbn [run dr]. unfold dr_body. rewrite Hn by lia. cbn [obind]. apply Hn2. lia.
      + exists (SRemove s'), h', (inl None). split; [|auto].
        exists (S n). intros [|m] Hm; [lia|]. cbn [run dr]. unfold dr_body. now rewrite Hn by lia.
      + exists (SRemove s'), h', (inr err). split; [|auto].
        exists (S n). intros [|m] Hm; [lia|]. cbn [run dr]. unfold dr_body. now rewrite Hn by lia. }
  intros Hr. destruct (Hdr _ _ Hr) as [HQ Hs]. apply Run_step; [exact HQ|exact I|].
  intros hf Hd. destruct (Hs hf Hd) as (s' & h' & r & E & Hd' & HA).
  exists s', h', r. split; [apply ne_intro; exact E|split; [exact Hd'|]].
  destruct r as [[ev|]|err]; cbn [Next] in *; [contradiction|exact HA|exact I].
Qed.

Lemma run_co Q P s h : Run Q P s h -> forall hf acc, hf ##ₘ h ->
  exists h' r, Ev (fun m => co (run m) (hf ∪ h) s acc) (hf ∪ h') r /\ hf ##ₘ h' /\
    (forall x, r = inl x -> Post Q h').
Proof.
  assert (forall H s s' H' acc, Ev (fun m => sk (run m) H s) H' (s', inl None) ->
            Ev (fun m => co (run m) H s acc) H' (inl acc)) as HEn.
  { intros H s0 s' H' acc [n Hn]. exists (S n). intros [|m] Hm; [lia|]. cbn [run co].
    unfold co_body. now rewrite Hn by lia. }
  revert s h. apply (run_ind_sk Q P (fun s h => forall hf acc, hf ##ₘ h ->
  exists h' r, Ev (fun m => co (run m) (hf ∪ h) s acc) (hf ∪ h') r /\ hf ##ₘ h' /\
    (forall x, r = inl x -> Post Q h'))).
  - intros s h HD hf acc Hd. destruct (dead_sk _ _ _ _ HD hf Hd) as (s' & h' & r & E & Hd' & -> & H').
    exists h', (inl acc). split; [eapply HEn; eauto|split; [auto|]].
    intros. eapply dead_post; eauto.
  - intros s h HQ _ Hs hf acc Hd. destruct (Hs hf Hd) as (s' & h' & r & E & Hd' & HA).
    destruct r as [[ev|]|err]; cbn [Next] in HA.
    + destruct HA as [_ HA]. destruct (HA hf (acc ++ [ev]) Hd') as (h2 & r2 & [n2 Hn2] & Hd2 & HQ2).
      exists h2, r2. split; [|auto]. destruct E as [n Hn].
      exists (S (max n n2)). intros [|m] Hm; [lia|]. cbn [run co]. unfold co_body.
      rewrite Hn by lia. cbn [obind]. apply Hn2. lia.
    + exists h', (inl acc). split; [eapply HEn; eauto|split; [auto|]].
      intros. eapply dead_post; eauto.
    + exists h', (inr err). split; [|split; [auto|discriminate]].
      destruct E as [n Hn]. exists (S n). intros [|m] Hm; [lia|]. cbn [run co].
      unfold co_body. now rewrite Hn by lia.
Qed.

Lemma run_combine_second Q s h : Runs Q s h -> Runs Q (SCombine (Some (CmbSecond s))) h.
Proof.
  apply (run_wrap_sk Q Q (fun s w => w = SCombine (Some (CmbSecond s))) (fun _ => False)); auto.
  - intros. now apply post_intro.
  - contradiction.
  - intros s0 w H H' s' r -> [n Hn].
    exists (match r with inl (Some _) => SCombine (Some (CmbSecond s')) | _ => SCombine None end), r.
    split.
    + apply ne_intro. exists n. intros m Hm. cbn [ne_body]. unfold passthrough, on_ok.
      rewrite Hn by auto. now destruct r as [[]|].
    + destruct r as [[ev|]|err]; cbn [Wrapped]; auto. split; [over|discriminate].
Qed.
Lemma run_combine (Q1 Q : heap -> Prop) s1 s2 h :
  (forall h, Q1 h -> Runs Q s2 h) -> Runs Q1 s1 h ->
  Runs Q (SCombine (Some (CmbFirst s1 s2))) h.
Proof.
  intros H2.
  apply (run_wrap_sk Q1 Q (fun s w => w = SCombine (Some (CmbFirst s s2)))
           (fun w => w = SCombine (Some (CmbSecond s2)))); auto.
  - intros. eapply run_post; eauto.
  - intros w h0 -> (hq & Hsub & HQ). eapply run_mono; [|exact Hsub].
    now apply run_combine_second, H2.
  - intros s0 w H H' s' r -> [n Hn].
    exists (match r with
            | inl (Some _) => SCombine (Some (CmbFirst s' s2))
            | inl None => SCombine (Some (CmbSecond s2))
            | inr _ => SCombine None end), (seq_result r).
    split.
    + apply ne_intro. exists n. intros m Hm. cbn [ne_body]. unfold passthrough, on_ok.
      rewrite Hn by auto. now destruct r as [[]|].
    + destruct r as [[ev|]|err]; cbn [seq_result Wrapped]; auto.
Qed.
Lemma run_append Q s n h : (forall h, Post Q h -> Runs Q n h) -> Runs Q s h ->
  Runs Q (append_new s n) h.
Proof. intros Hn. apply run_combine. intros. now apply Hn, post_intro. Qed.
Lemma run_prepend Q s n h : (forall Q h, Post Q h -> Runs Q n h) -> Runs Q s h ->
  Runs Q (prepend_new s n) h.
Proof.
  intros Hn Hr. apply (run_combine (Runs Q s)); [auto|]. now apply Hn, post_intro.
Qed.

(** Streams that look at the first event and then forward. *)
Lemma run_start_sk Q s w h :
  Runs Q s h ->
  (forall H H' s' r, Ev (fun m => sk (run m) H s) H' (s', r) ->
     exists w' r', Ev (fun m => ne (run m) H w) H' (w', r') /\
       match r' with
       | inr _ => True
       | inl _ => forall h', Next (Runs Q) (Dead Q Any) s' h' r -> Next (Runs Q) (Dead Q Any) w' h' r'
       end) ->
  Runs Q w h.
Proof.
  intros Hr Hw. apply Run_step; [eapply run_post; eauto|exact I|]. intros hf Hd.
  destruct (run_sk _ _ _ _ Hr hf Hd) as (s' & h' & r & E & Hd' & HA).
  destruct (Hw _ _ _ _ E) as (w' & r' & E' & HW).
  exists w', h', r'. split; [exact E'|split; [exact Hd'|]].
  destruct r' as [[ev|]|err]; [now apply HW|now apply HW|exact I].
Qed.

Lemma run_expand_emit Q s h : Runs Q s h -> Runs Q (SExpand (Some (XEmitStream s))) h.
Proof. apply (run_pass (fun s => SExpand (Some (XEmitStream s))) (SExpand None)); [reflexivity|over]. Qed.
Lemma run_expand Q s h : Runs Q s h -> Runs Q (SExpand (Some (XStart s))) h.
Proof.
  intros Hr. apply (run_start_sk Q s); [exact Hr|]. intros H H' s' r E.
  destruct r as [[[]|]|err]; wraps E; cbn [Next]; try exact I; intros h' HN.
  - now apply run_expand_emit.
  - apply (run_emit _ _ (SExpand None) (ClosingTag tag)); [over|].
    apply run_over; [over|]. eapply run_post; eauto.
  - apply run_over; [over|]. eapply run_post; eauto.
Qed.

Lemma run_attr Q s c h : Runs Q s h -> Runs Q (SAttr (Some (AStart s c))) h.
Proof.
  intros Hr. apply (run_start_sk Q s); [exact Hr|]. intros H H' s' r E.
  destruct r as [[[]|]|err]; wraps E; cbn [Next]; try exact I; intros h' HN.
  - apply (run_pass (fun s => SAttr (Some (AEmit s))) (SAttr None)); [reflexivity|over|exact HN].
  - apply run_over; [over|]. eapply run_post; eauto.
  - apply run_over; [over|]. eapply run_post; eauto.
Qed.

Lemma run_until Q tag s level h : Runs Q s h ->
  Runs Q (SSingle (Some (SEUntilClose tag s level))) h.
Proof.
  apply (run_wrap Q Q (fun s w => exists level, w = SSingle (Some (SEUntilClose tag s level)))
           (fun _ => False)); eauto.
  - intros. now apply post_intro.
  - contradiction.
  - intros s0 w H H' s' r [l0 ->] [n Hn]. destruct r as [[ev|]|err].
    + destruct (is_opening_tag_for ev tag) eqn:Eo;
        [|destruct (is_closing_tag_for ev tag) eqn:Ec; [destruct l0|]];
        (eexists _, _; split;
         [apply ne_intro; exists n; intros m Hm; cbn [ne_body]; unfold on_ok;
          rewrite Hn by auto; cbn [obind]; rewrite Eo; try rewrite Ec; reflexivity|]);
        cbn [Wrapped]; eauto. right. over.
    + eexists _, _. split; [apply ne_intro; exists n; intros m Hm; cbn [ne_body]; unfold on_ok;
          rewrite Hn by auto; reflexivity|]. cbn [Wrapped]. split; [over|discriminate].
    + eexists _, _. split; [apply ne_intro; exists n; intros m Hm; cbn [ne_body]; unfold on_ok;
          rewrite Hn by auto; reflexivity|]. exact I.
Qed.
Lemma run_single Q ev s h : Runs Q s h -> Runs Q (SSingle (Some (SEStart ev s))) h.
Proof.
  intros Hr. assert (Runs Q (SSingle None) h) as Hn.
  { apply run_over; [over|]. eapply run_post; eauto. }
  destruct ev;
    try (eapply run_fail; [over|eapply run_post; eauto]);
    (eapply run_emit; [over|]); auto using run_until.
Qed.

(** ** Shared sources *)

Definition Is (s : strm) (s' : strm) (_ : heap) : Prop := s' = s.

Lemma run_shared Q l c h : h !! l = None -> Runs Q c h ->
  Run Q (Is (SShared l)) (SShared l) (<[l := Cell c]> h).
Proof.
  assert (forall c h, h !! l = None -> Post Q h -> Post Q (<[l := Cell c]> h)) as Hp.
  { intros c0 h0 Hl. apply post_mono. now apply insert_subseteq. }
  assert (forall c h, h !! l = None -> Dead Q Any c h ->
            Dead Q (Is (SShared l)) (SShared l) (<[l := Cell c]> h)) as HDX.
  { intros c0 h0 Hl HD.
    exists (fun w H => w = SShared l /\
              exists c h, H = <[l := Cell c]> h /\ h !! l = None /\ Dead Q Any c h).
    split; [eauto 10|]. intros w H0 (-> & c1 & h1 & -> & Hl1 & H1).
    split; [apply Hp; [auto|eapply dead_post; eauto]|split; [reflexivity|]].
    eapply stepF_mono; [|apply (shared_step _ _ _ _ Hl1 (dead_step _ _ _ _ H1))].
    intros s' h' r (-> & s2 & h2 & -> & Hl2 & -> & H2). eauto 10. }
  intros Hl Hr. revert c h Hr Hl.
  apply (run_ind Q Any (fun c h => h !! l = None ->
           Run Q (Is (SShared l)) (SShared l) (<[l := Cell c]> h))).
  - intros. now apply Run_dead, HDX.
  - intros c h HQ _ Hs Hl. apply Run_step; [now apply Hp|reflexivity|].
    eapply stepF_mono; [|apply (shared_step _ _ _ _ Hl Hs)].
    intros s' h' r (-> & s2 & h2 & -> & Hl2 & HA).
    destruct r as [[ev|]|err]; cbn [Next] in *; [now apply HA|now apply HDX|exact I].
Qed.

(** ** Building *)

(** The function [bld] turns streams that stop into streams that stop. *)
Definition BuildsR (bld : heap -> strm -> out strm) : Prop :=
  forall Q s h, Runs Q s h -> forall hf, hf ##ₘ h ->
  exists h' s', bld (hf ∪ h) s = Done (hf ∪ h') s' /\ hf ##ₘ h' /\ Runs Q s' h'.

Lemma buildsR_pure (C : strm -> strm) :
  (forall Q s h, Runs Q s h -> Runs Q (C s) h) -> BuildsR (fun h s => Done h (C s)).
Proof. intros HC Q s h Hr hf Hd. exists h, (C s). auto. Qed.

(** ** Selections *)

Lemma run_forget Q P s h : Run Q P s h -> Runs Q s h.
Proof.
  assert (forall s h, Dead Q P s h -> Dead Q Any s h) as HDX.
  { intros s0 h0 HD. exists (Dead Q P). split; [exact HD|]. intros s1 h1 H1.
    split; [eapply dead_post; eauto|split; [exact I|now apply dead_step]]. }
  revert s h. apply run_ind.
  - intros. now apply Run_dead, HDX.
  - intros s h HQ _ Hs. apply Run_step; [exact HQ|exact I|].
    eapply stepF_mono; [|exact Hs]. intros s' h' r HA.
    destruct r as [[ev|]|err]; cbn [Next] in *; [apply HA|now apply HDX|exact I].
Qed.

Section Select.
Variables (l : loc) (m : selector) (b : nat -> pipeline) (direct : bool).
Hypothesis Hb : forall k, BuildsR (build (b k)).
Let scanning (level calls : nat) : strm := SSelect l m b calls direct (Some (SelScanning level)).

Lemma scan_step Q h level calls X D :
  Post Q h ->
  StepF SK h (SShared l) (Next X D) ->
  (forall s h, D s h -> Post Q h) ->
  (forall s h, X s h -> s = SShared l /\
     (forall level calls, Runs Q (scanning level calls) h) /\
     exists Qin, Runs Qin (SShared l) h /\
       (forall h, Qin h -> forall level calls, Runs Q (scanning level calls) h)) ->
  Runs Q (scanning level calls) h.
Proof.
  intros HQ Hs HD HX. apply Run_step; [exact HQ|exact I|]. intros hf Hd.
  destruct (Hs hf Hd) as (s' & h' & r & [n Hn] & Hd' & HA).
  destruct r as [[ev|]|err]; cbn [Next] in HA.
  - destruct (HX _ _ HA) as (-> & Hscan & Qin & Hin & HQin).
    destruct (include direct level && matches m ev) eqn:Ei.
    + destruct (Hb calls Qin (SSingle (Some (SEStart ev (SShared l)))) h' (run_single _ _ _ _ Hin) hf Hd')
        as (h2 & new & E & Hd2 & Hnew).
      exists (SSelect l m b (S calls) direct (Some (SelActive level new))), h2, (inl (Some Noop)).
      split; [|split; [exact Hd2|]].
      * apply ne_intro. exists n. intros k Hk. cbn [ne_body scanning]. unfold on_ok.
        rewrite Hn by auto. cbn [obind]. rewrite Ei, E. reflexivity.
      * cbn [Next]. revert Hnew.
        apply (run_wrap Qin Q (fun s w => w = SSelect l m b (S calls) direct (Some (SelActive level s)))
                 (fun w => w = scanning level (S calls))); auto.
        -- intros h3 H3. eapply run_post. apply (HQin _ H3 0 0).
        -- intros w h3 -> (hq & Hsub & H3). eapply run_mono; [|exact Hsub]. now apply HQin.
        -- intros s0 w H H' s' r -> [k Hk].
           destruct r as [[ev'|]|err']; (eexists _, _; split;
             [apply ne_intro; exists k; intros ? ?; cbn [ne_body]; unfold on_ok;
              rewrite Hk by auto; reflexivity|]); cbn [Wrapped]; auto.
    + destruct (adjust level ev) as [level'|err] eqn:Ea.
      * exists (scanning level' calls), h', (inl (Some ev)). split; [|split; [exact Hd'|apply Hscan]].
        apply ne_intro. exists n. intros k Hk. cbn [ne_body scanning]. unfold on_ok.
        rewrite Hn by auto. cbn [obind]. rewrite Ei, Ea. reflexivity.
      * exists (SSelect l m b calls direct None), h', (inr err).
        split; [|split; [exact Hd'|exact I]].
        apply ne_intro. exists n. intros k Hk. cbn [ne_body scanning]. unfold on_ok.
        rewrite Hn by auto. cbn [obind]. rewrite Ei, Ea. reflexivity.
  - exists (SSelect l m b calls direct None), h', (inl None). split; [|split; [exact Hd'|]].
    + apply ne_intro. exists n. intros k Hk. cbn [ne_body scanning]. unfold on_ok.
      rewrite Hn by auto. reflexivity.
    + apply over_dead; [over|]. eauto.
  - exists (SSelect l m b calls direct None), h', (inr err). split; [|split; [exact Hd'|exact I]].
    apply ne_intro. exists n. intros k Hk. cbn [ne_body scanning]. unfold on_ok.
    rewrite Hn by auto. reflexivity.
Qed.

Lemma run_select Q h : Run Q (Is (SShared l)) (SShared l) h -> Runs Q (scanning 0 0) h.
Proof.
  intros Hr.
  apply (run_strengthen Q (Is (SShared l)) (fun _ h => forall level calls, Runs Q (scanning level calls) h))
    in Hr.
  - apply run_pred in Hr. now destruct Hr as [_ Hr].
  - intros s h0 HD level calls. assert (s = SShared l) as -> by exact (dead_pred _ _ _ _ HD).
    apply (scan_step Q h0 level calls (fun _ _ => False) (Dead Q (Is (SShared l)))).
    + eapply dead_post; eauto.
    + eapply stepF_mono; [|apply dead_sk; exact HD]. intros s' h' r [-> H']. exact H'.
    + intros. eapply dead_post; eauto.
    + contradiction.
  - clear h Hr. intros s h HQ -> Hs level calls. eapply (scan_step Q h level calls); [exact HQ|exact Hs| |].
    + intros. eapply dead_post; eauto.
    + intros s' h' Hr. pose proof (run_pred _ _ _ _ Hr) as [-> Hscan].
      split; [reflexivity|split; [exact Hscan|]]. eexists. split.
      * refine (run_self Q _ l h' _ Hr). intros s1 h1 [H1 _]. exact H1.
      * intros h1 H1. apply run_pred in H1. apply H1.
Qed.
End Select.

Lemma buildsR_select m b direct : (forall k, BuildsR (build (b k))) ->
  BuildsR (fun h s => let '(h, s) := select_new h s m b direct in Done h s).
Proof.
  intros Hb Q s h Hr hf Hd. unfold select_new. cbv zeta beta.
  pose proof (fresh_loc_none (hf ∪ h)) as Hfresh.
  apply lookup_union_None in Hfresh as [Hfl Hl]. set (l := fresh_loc (hf ∪ h)) in *.
  rewrite insert_union_r by auto. eexists _, _. split; [reflexivity|].
  split; [apply map_disjoint_insert_r; auto|].
  apply run_select; [exact Hb|]. now apply run_shared.
Qed.

Section SelectOnce.
Variables (l : loc) (m : selector) (p : pipeline) (direct : bool).
Hypothesis Hp : BuildsR (build p).
Let scanning (level : nat) : strm := SSelectOnce l (Some (SelOScanning m p direct level)).

Lemma run_passthrough Q h : Runs Q (SShared l) h -> 
  Run Q (Is (SShared l)) (SShared l) h -> Runs Q (SSelectOnce l (Some SelOPassthrough)) h.
Proof.
  intros _. revert h.
  assert (forall s h, Run Q (Is (SShared l)) s h -> Runs Q (SSelectOnce l (Some SelOPassthrough)) h)
    as G; [|eauto].
  assert (forall H H' s' r, Ev (fun m => ne (run m) H (SShared l)) H' (s', r) ->
    Ev (fun m => ne (run m) H (SSelectOnce l (Some SelOPassthrough))) H'
       (match r with inl (Some _) => SSelectOnce l (Some SelOPassthrough) | _ => SSelectOnce l None end, r))
    as HE.
  { intros H H' s' r [n Hn]. apply ne_intro. exists n. intros k Hk. cbn [ne_body].
    unfold passthrough, on_ok. rewrite Hn by auto. now destruct r as [[]|]. }
  apply run_ind.
  - intros s h HD. assert (s = SShared l) as -> by exact (dead_pred _ _ _ _ HD).
    apply Run_step; [eapply dead_post; eauto|exact I|]. intros hf Hd.
    destruct (dead_step _ _ _ _ HD hf Hd) as (s' & h' & r & E & Hd' & -> & H').
    eexists _, _, _. split; [apply (HE _ _ _ _ E)|split; [exact Hd'|]].
    apply over_dead; [over|eapply dead_post; eauto].
  - intros s h HQ -> Hs. apply Run_step; [exact HQ|exact I|]. intros hf Hd.
    destruct (Hs hf Hd) as (s' & h' & r & E & Hd' & HA).
    eexists _, _, _. split; [apply (HE _ _ _ _ E)|split; [exact Hd'|]].
    destruct r as [[ev|]|err]; cbn [Next] in *; [apply HA| |exact I].
    apply over_dead; [over|eapply dead_post; eauto].
Qed.

Lemma run_select_once Q h : Run Q (Is (SShared l)) (SShared l) h -> Runs Q (scanning 0) h.
Proof.
  intros Hr.
  assert (forall s h, Run Q (Is (SShared l)) s h -> forall level, Runs Q (scanning level) h) as G;
    [|eapply G; eauto].
  clear h Hr.
  assert (forall h level D, Post Q h -> 
    StepF SK h (SShared l) (Next (fun s h => Run Q (Is (SShared l)) s h /\
      forall level, Runs Q (scanning level) h) D) ->
    (forall s h, D s h -> Post Q h) -> Runs Q (scanning level) h) as Hscan.
  { intros h level D HQ Hs HD. apply Run_step; [exact HQ|exact I|]. intros hf Hd.
    destruct (Hs hf Hd) as (s' & h' & r & [n Hn] & Hd' & HA).
    destruct r as [[ev|]|err]; cbn [Next] in HA.
    - destruct HA as [Hr Hscan]. pose proof (run_pred _ _ _ _ Hr) as Hp'. unfold Is in Hp'. subst s'.
      destruct (include direct level && matches m ev) eqn:Ei.
      + set (Qin := Run Q (Is (SShared l)) (SShared l)).
        assert (Runs Qin (SShared l) h') as Hin by (apply run_self; auto).
        destruct (Hp Qin (SSingle (Some (SEStart ev (SShared l)))) h' (run_single _ _ _ _ Hin) hf Hd')
          as (h2 & new & E & Hd2 & Hnew).
        exists (SSelectOnce l (Some (SelOActive new))), h2, (inl (Some Noop)).
        split; [|split; [exact Hd2|]].
        * apply ne_intro. exists n. intros k Hk. cbn [ne_body scanning]. unfold on_ok.
          rewrite Hn by auto. cbn [obind]. rewrite Ei, E. reflexivity.
        * cbn [Next]. revert Hnew.
          apply (run_wrap Qin Q (fun s w => w = SSelectOnce l (Some (SelOActive s)))
                   (fun w => w = SSelectOnce l (Some SelOPassthrough))); auto.
          -- intros h3 H3. eapply run_post; eauto.
          -- intros w h3 -> (hq & Hsub & H3). eapply run_mono; [|exact Hsub].
             apply run_passthrough; [eapply run_forget; eauto|exact H3].
          -- intros s0 w H H' s' r -> [k Hk].
             destruct r as [[ev'|]|err']; (eexists _, _; split;
               [apply ne_intro; exists k; intros ? ?; cbn [ne_body]; unfold on_ok;
                rewrite Hk by auto; reflexivity|]); cbn [Wrapped]; auto.
      + destruct (adjust level ev) as [level'|err] eqn:Ea.
        * exists (scanning level'), h', (inl (Some ev)). split; [|split; [exact Hd'|apply Hscan]].
          apply ne_intro. exists n. intros k Hk. cbn [ne_body scanning]. unfold on_ok.
          rewrite Hn by auto. cbn [obind]. rewrite Ei, Ea. reflexivity.
        * exists (SSelectOnce l None), h', (inr err).
          split; [|split; [exact Hd'|exact I]].
          apply ne_intro. exists n. intros k Hk. cbn [ne_body scanning]. unfold on_ok.
          rewrite Hn by auto. cbn [obind]. rewrite Ei, Ea. reflexivity.
    - exists (SSelectOnce l None), h', (inl None). split; [|split; [exact Hd'|]].
      + apply ne_intro. exists n. intros k Hk. cbn [ne_body scanning]. unfold on_ok.
        rewrite Hn by auto. reflexivity.
      + apply over_dead; [over|]. eauto.
    - exists (SSelectOnce l None), h', (inr err). split; [|split; [exact Hd'|exact I]].
      apply ne_intro. exists n. intros k Hk. cbn [ne_body scanning]. unfold on_ok.
      rewrite Hn by auto. reflexivity. }
  apply (run_ind_sk Q (Is (SShared l)) (fun _ h => forall level, Runs Q (scanning level) h)).
  - intros s h HD level. assert (s = SShared l) as -> by exact (dead_pred _ _ _ _ HD).
    apply (Hscan h level (Dead Q (Is (SShared l)))).
    + eapply dead_post; eauto.
    + eapply stepF_mono; [|apply dead_sk; exact HD]. intros s' h' r [-> H']. exact H'.
    + intros. eapply dead_post; eauto.
  - intros s h HQ -> Hs level. apply (Hscan h level _ HQ Hs). intros. eapply dead_post; eauto.
Qed.
End SelectOnce.

Lemma buildsR_select_once m p direct : BuildsR (build p) ->
  BuildsR (fun h s => let '(h, s) := select_once_new h s m p direct in Done h s).
Proof.
  intros Hb Q s h Hr hf Hd. unfold select_once_new. cbv zeta beta.
  pose proof (fresh_loc_none (hf ∪ h)) as Hfresh.
  apply lookup_union_None in Hfresh as [Hfl Hl]. set (l := fresh_loc (hf ∪ h)) in *.
  rewrite insert_union_r by auto. eexists _, _. split; [reflexivity|].
  split; [apply map_disjoint_insert_r; auto|].
  apply run_select_once; [exact Hb|]. now apply run_shared.
Qed.

(** ** Contents *)

(** The cell [l] has a [Peek] whose source stops. *)
Definition Peeks (l : loc) (Q : heap -> Prop) (h : heap) : Prop :=
  exists s buf h1, h = <[l := Cell (SPeek s buf)]> h1 /\ h1 !! l = None /\ Runs Q s h1.
Lemma peeks_intro l Q s buf h : h !! l = None -> Runs Q s h ->
  Peeks l Q (<[l := Cell (SPeek s buf)]> h).
Proof. exists s, buf, h. auto. Qed.
Lemma peeks_post l Q h : Peeks l Q h -> Post Q h.
Proof.
  intros (s & buf & h1 & -> & Hl & Hr). eapply post_mono; [|eapply run_post; exact Hr].
  now apply insert_subseteq.
Qed.

Lemma run_current Q tag l s h : Runs Q s h -> h !! l = None -> forall level,
  Runs (Peeks l Q) (SCurrentContent (Some (tag, l, level))) (<[l := Cell (SPeek s None)]> h).
Proof.
  assert (forall s h level D, Runs Q s h ->
    StepF SK h s (Next (fun s h => Runs Q s h /\ (h !! l = None -> forall level,
      Runs (Peeks l Q) (SCurrentContent (Some (tag, l, level))) (<[l := Cell (SPeek s None)]> h))) D) ->
    (forall s h, D s h -> Runs Q s h) -> h !! l = None ->
    Runs (Peeks l Q) (SCurrentContent (Some (tag, l, level))) (<[l := Cell (SPeek s None)]> h)) as G.
  { intros s0 h0 level D Hr0 Hs HD Hl.
    apply Run_step; [apply post_intro; now apply peeks_intro|exact I|].
    (* one event taken from the cell *)
    assert (StepF NE h0 (SPeek s0 None) (fun s' h' r => exists s1, s' = SPeek s1 None /\
      Next (fun s h => Runs Q s h /\ (h !! l = None -> forall level,
      Runs (Peeks l Q) (SCurrentContent (Some (tag, l, level))) (<[l := Cell (SPeek s None)]> h))) D s1 h' r))
      as Hne.
    { intros hf Hd. destruct (Hs hf Hd) as (s' & h' & r & [n Hn] & Hd' & HA).
      exists (SPeek s' None), h', r. split; [|eauto].
      apply ne_intro. exists n. intros k Hk. cbn [ne_body]. unfold on_ok. rewrite Hn by auto.
      now destruct r as [[]|]. }
    assert (StepF (fun m => peek (run m)) h0 (SPeek s0 None) (fun s' h' r => exists s1,
      s' = SPeek s1 (match r with inl r => r | inr _ => None end) /\
      Next (fun s h => Runs Q s h /\ (h !! l = None -> forall level,
      Runs (Peeks l Q) (SCurrentContent (Some (tag, l, level))) (<[l := Cell (SPeek s None)]> h))) D s1 h' r))
      as Hpk.
    { intros hf Hd. destruct (Hs hf Hd) as (s' & h' & r & [n Hn] & Hd' & HA).
      exists (SPeek s' (match r with inl r => r | inr _ => None end)), h', r. split; [|eauto].
      exists n. intros k Hk. unfold peek, on_ok. rewrite Hn by auto.
      now destruct r as [[]|]. }
    intros hf Hd. destruct level as [|level].
    - destruct (with_cell_step _ _ _ _ _ Hl Hpk hf Hd)
        as (s' & h' & r & [n Hn] & Hd' & -> & c1 & h1 & -> & Hl1 & s1 & -> & HA).
      destruct r as [[ev|]|err]; cbn [Next] in HA.
      + destruct HA as [Hr1 HA]. destruct (is_closing_tag_for ev tag) eqn:Ec.
        * exists (SCurrentContent None), (<[l := Cell (SPeek s1 (Some ev))]> h1), (inl None).
          split; [|split; [exact Hd'|]].
          -- apply ne_intro. exists n. intros k Hk. cbn [ne_body Nat.eqb negb]. unfold on_ok.
             rewrite Hn by auto. cbn [obind]. rewrite Ec. reflexivity.
          -- apply over_dead; [over|]. apply post_intro. now apply peeks_intro.
        * assert (StepF NE h1 (SPeek s1 (Some ev)) (fun s' h' r =>
            s' = SPeek s1 None /\ h' = h1 /\ r = inl (Some ev))) as Hne1.
          { intros hf1 Hd1. exists (SPeek s1 None), h1, (inl (Some ev)). split; [|auto]. ne_now. }
          destruct (shared_step _ _ _ _ Hl1 Hne1 hf Hd')
            as (s' & h' & r & [n2 Hn2] & Hd2 & -> & c2 & h2 & -> & Hl2 & -> & -> & ->).
          destruct (adjust 0 ev) as [level'|err] eqn:Ea.
          -- exists (SCurrentContent (Some (tag, l, level'))), (<[l := Cell (SPeek s1 None)]> h1),
               (inl (Some ev)). split; [|split; [exact Hd2|now apply HA]].
             apply ne_intro. exists (max n n2). intros k Hk. cbn [ne_body Nat.eqb negb]. unfold on_ok.
             rewrite Hn by lia. cbn [obind]. rewrite Ec, Hn2 by lia. cbn [obind]. rewrite Ea. reflexivity.
          -- exists (SCurrentContent None), (<[l := Cell (SPeek s1 None)]> h1),
               (inr (missing_close tag)). split; [|split; [exact Hd2|exact I]].
             apply ne_intro. exists (max n n2). intros k Hk. cbn [ne_body Nat.eqb negb]. unfold on_ok.
             rewrite Hn by lia. cbn [obind]. rewrite Ec, Hn2 by lia. cbn [obind]. rewrite Ea. reflexivity.
      + eexists _, _, (inr (missing_close tag)). split; [|split; [exact Hd'|exact I]].
        apply ne_intro. exists n. intros k Hk. cbn [ne_body Nat.eqb negb]. unfold on_ok.
        rewrite Hn by auto. reflexivity.
      + eexists _, _, (inr err). split; [|split; [exact Hd'|exact I]].
        apply ne_intro. exists n. intros k Hk. cbn [ne_body Nat.eqb negb]. unfold on_ok.
        rewrite Hn by auto. reflexivity.
    - destruct (shared_step _ _ _ _ Hl Hne hf Hd)
        as (s' & h' & r & [n Hn] & Hd' & -> & c1 & h1 & -> & Hl1 & s1 & -> & HA).
      destruct r as [[ev|]|err]; cbn [Next] in HA.
      + destruct HA as [Hr1 HA]. destruct (adjust (S level) ev) as [level'|err] eqn:Ea.
        * exists (SCurrentContent (Some (tag, l, level'))), (<[l := Cell (SPeek s1 None)]> h1),
            (inl (Some ev)). split; [|split; [exact Hd'|now apply HA]].
          apply ne_intro. exists n. intros k Hk. cbn [ne_body Nat.eqb negb]. unfold on_ok.
          rewrite Hn by auto. cbn [obind]. rewrite Ea. reflexivity.
        * eexists _, _, (inr (missing_close tag)). split; [|split; [exact Hd'|exact I]].
          apply ne_intro. exists n. intros k Hk. cbn [ne_body Nat.eqb negb]. unfold on_ok.
          rewrite Hn by auto. cbn [obind]. rewrite Ea. reflexivity.
      + eexists _, _, (inr (missing_close tag)). split; [|split; [exact Hd'|exact I]].
        apply ne_intro. exists n. intros k Hk. cbn [ne_body Nat.eqb negb]. unfold on_ok.
        rewrite Hn by auto. reflexivity.
      + eexists _, _, (inr err). split; [|split; [exact Hd'|exact I]].
        apply ne_intro. exists n. intros k Hk. cbn [ne_body Nat.eqb negb]. unfold on_ok.
        rewrite Hn by auto. reflexivity. }
  intros Hr. apply (run_ind_both Q Any (fun s h => h !! l = None -> forall level,
    Runs (Peeks l Q) (SCurrentContent (Some (tag, l, level))) (<[l := Cell (SPeek s None)]> h))) in Hr;
    [exact (proj1 Hr)| |].
  - clear s h Hr. intros s h HD Hl level. apply (G s h level (Dead Q Any)); auto.
    + now apply Run_dead.
    + eapply stepF_mono; [|apply dead_sk; exact HD]. intros s' h' r [-> H']. exact H'.
    + intros. now apply Run_dead.
  - clear s h Hr. intros s h HQ _ Hne Hsk Hl level. apply (G s h level (Dead Q Any)); auto.
    + apply Run_step; [exact HQ|exact I|]. eapply stepF_mono; [|exact Hne]. intros s' h' r HA.
      destruct r as [[ev|]|err]; cbn [Next] in *; [apply HA|exact HA|exact I].
    + intros. now apply Run_dead.
Qed.

Lemma run_close Q l tag h : Post (Peeks l Q) h -> Runs Q (SSelectContent (Some (SCClose l tag))) h.
Proof.
  intros (hq & Hsub & s & buf & h1 & -> & Hl & Hr). eapply run_mono; [|exact Hsub]. clear h Hsub.
  apply (run_peek Q s buf) in Hr. apply (run_shared Q l _ _ Hl), run_forget in Hr.
  apply (run_start_sk Q (SShared l)); [exact Hr|]. intros H H' s' r E.
  destruct r as [[[]|]|err]; try (wraps E; exact I).
  destruct (ident_eqb tag0 tag) eqn:Et.
  - exists (SSelectContent None), (inl (Some (ClosingTag tag0))). split.
    + destruct E as [n Hn]. apply ne_intro. exists n. intros k Hk. cbn [ne_body]. unfold on_ok.
      rewrite Hn by auto. cbn [obind]. rewrite Et. reflexivity.
    + cbn [Next]. intros h' HN. apply run_over; [over|]. eapply run_post; eauto.
  - exists (SSelectContent None), (inr (unexpected_close tag0)). split; [|exact I].
    destruct E as [n Hn]. apply ne_intro. exists n. intros k Hk. cbn [ne_body]. unfold on_ok.
    rewrite Hn by auto. cbn [obind]. rewrite Et. reflexivity.
Qed.

Lemma run_contents Q s cb h : BuildsR (build_content cb) -> Runs Q s h ->
  Runs Q (select_content_new s cb) h.
Proof.
  intros Hb Hr. apply run_expand in Hr. apply Run_step; [eapply run_post; eauto|exact I|].
  intros hf Hd. destruct (run_sk _ _ _ _ Hr hf Hd) as (x & h' & r & [n Hn] & Hd' & HA).
  assert (forall w r', (forall k, n <= k -> ne_body (run k) (hf ∪ h) (select_content_new s cb)
                                           = Done (hf ∪ h') (w, r')) ->
            Next (Runs Q) (Dead Q Any) w h' r' ->
            exists s' h' r, Ev (fun m => ne (run m) (hf ∪ h) (select_content_new s cb)) (hf ∪ h') (s', r) /\
              hf ##ₘ h' /\ Next (Runs Q) (Dead Q Any) s' h' r) as Hgo.
  { intros w r' E HN. exists w, h', r'. split; [|auto]. apply ne_intro. exists n. exact E. }
  assert (forall r, match r with inl (Some (OpeningTag _ _)) => False | _ => True end ->
    (forall m, n <= m -> sk (run m) (hf ∪ h) (SExpand (Some (XStart s))) = Done (hf ∪ h') (x, r)) ->
    (match r with inl (Some _) => Post Q h' | _ => True end) ->
    exists s' h' r, Ev (fun m => ne (run m) (hf ∪ h) (select_content_new s cb)) (hf ∪ h') (s', r) /\
              hf ##ₘ h' /\ Next (Runs Q) (Dead Q Any) s' h' r) as Hother.
  { intros r0 Hr0 Hn0 HQ. destruct r0 as [[[]|]|err]; try contradiction;
      (eapply Hgo; [intros k Hk; unfold select_content_new; cbn [ne_body]; unfold on_ok;
                    rewrite Hn0 by auto; reflexivity|]); try exact I.
    apply run_over; [over|exact HQ]. }
  destruct r as [[ev|]|err]; cbn [Next] in HA;
    [|exact (Hother (inl None) I Hn I)|exact (Hother (inr err) I Hn I)].
  pose proof (run_post _ _ _ _ HA) as HQ.
  destruct ev; try (eapply Hother; [|exact Hn|exact HQ]; exact I).
  pose proof (fresh_loc_none (hf ∪ h')) as Hfresh.
  apply lookup_union_None in Hfresh as [Hfl Hl].
  remember (fresh_loc (hf ∪ h')) as l eqn:El.
  destruct (Hb (Peeks l Q) (SCurrentContent (Some (tag, l, 0))) (<[l := Cell (SPeek x None)]> h')
              (run_current Q tag l x h' HA Hl 0) hf) as (h2 & s2 & E2 & Hd2 & Hs2).
  { apply map_disjoint_insert_r. auto. }
  exists (SSelectContent (Some (SCContent l s2 tag))), h2, (inl (Some (OpeningTag tag attrs))).
  split; [|split; [exact Hd2|]].
  - apply ne_intro. exists n. intros k Hk. unfold select_content_new. cbn [ne_body]. unfold on_ok.
    rewrite Hn by auto. cbn [obind]. rewrite <- El, insert_union_r by auto. rewrite E2. reflexivity.
  - cbn [Next]. revert Hs2.
    apply (run_wrap (Peeks l Q) Q (fun s w => w = SSelectContent (Some (SCContent l s tag)))
             (fun w => w = SSelectContent (Some (SCClose l tag)))); auto.
    + intros. now apply peeks_post with (l := l).
    + intros w h3 -> H3. now apply run_close.
    + intros s0 w H H' s' r -> [k Hk].
      destruct r as [[ev'|]|err']; (eexists _, _; split;
        [apply ne_intro; exists k; intros ? ?; cbn [ne_body]; unfold on_ok;
         rewrite Hk by auto; reflexivity|]); cbn [Wrapped]; auto.
Qed.

(** ** Collecting *)

Lemma run_apply_emit Q evs i h : Post Q h -> Runs Q (STemplateApply (Some (TAEmit evs i))) h.
Proof.
  intros HQ.
  apply (run_wrap Q Q (fun s w => exists i, s = STemplate evs i /\ w = STemplateApply (Some (TAEmit evs i)))
           (fun _ => False) (STemplate evs i)); [intros; now apply post_intro|contradiction| |eauto|].
  - intros s w H H' s' r (j & -> & ->) E.
    assert (Ev (fun m => ne (run m) H (STemplate evs j)) H
              (match nth_error evs j with
               | Some ev => (STemplate evs (S j), inl (Some ev))
               | None => (STemplate evs j, inl None)
               end)) as E0.
    { apply ne_intro. exists 0. intros m _. cbn [ne_body]. now destruct (nth_error evs j). }
    destruct (ev_det _ _ _ _ _ E E0) as [-> E1]. clear E0.
    destruct (nth_error evs j) as [ev|]; injection E1 as -> ->; wraps E; cbn [Wrapped]; eauto.
    split; [over|discriminate].
  - now apply run_template.
Qed.

Lemma run_as_template Q s f h : Runs Q s h -> Runs Q (STemplateApply (Some (TACollect s f))) h.
Proof.
  intros Hr. apply Run_step; [eapply run_post; eauto|exact I|]. intros hf Hd.
  destruct (run_co _ _ _ _ Hr hf [] Hd) as (h' & r & [n Hn] & Hd' & HQ).
  destruct r as [evs|err]; [destruct (f evs) as [evs'|err] eqn:Ef|].
  - exists (STemplateApply (Some (TAEmit evs' 0))), h', (inl (Some Noop)).
    split; [|split; [exact Hd'|apply run_apply_emit; eauto]].
    apply ne_intro. exists n. intros k Hk. cbn [ne_body]. rewrite Hn by auto. cbn [obind].
    rewrite Ef. reflexivity.
  - exists (STemplateApply None), h', (inr err). split; [|split; [exact Hd'|exact I]].
    apply ne_intro. exists n. intros k Hk. cbn [ne_body]. rewrite Hn by auto. cbn [obind].
    rewrite Ef. reflexivity.
  - exists (STemplateApply None), h', (inr err). split; [|split; [exact Hd'|exact I]].
    apply ne_intro. exists n. intros k Hk. cbn [ne_body]. rewrite Hn by auto. reflexivity.
Qed.

Lemma run_repeat_next Q evs bs : (forall p, In p bs -> BuildsR (build p)) ->
  forall h, Post Q h -> Runs Q (SRepeat (Some (RNext evs bs))) h.
Proof.
  induction bs as [|p bs IH]; intros Hb h HQ.
  - apply (run_finish _ _ (SRepeat None)); [over|over|exact HQ].
  - apply Run_step; [exact HQ|exact I|]. intros hf Hd.
    destruct (Hb p (or_introl eq_refl) Q _ h (run_template Q evs 0 h HQ) hf Hd)
      as (h' & s' & E & Hd' & Hs').
    exists (SRepeat (Some (REmit evs s' bs))), h', (inl (Some Noop)). split; [|split; [exact Hd'|]].
    + apply ne_intro. exists 0. intros k _. cbn [ne_body]. rewrite E. reflexivity.
    + cbn [Next]. revert Hs'.
      apply (run_wrap Q Q (fun s w => w = SRepeat (Some (REmit evs s bs)))
               (fun w => w = SRepeat (Some (RNext evs bs)))); auto.
      * intros. now apply post_intro.
      * intros w h3 -> H3. apply IH; auto. intros q Hq. apply Hb. now right.
      * intros s0 w H H' s1 r -> [k Hk].
        destruct r as [[ev'|]|err']; (eexists _, _; split;
          [apply ne_intro; exists k; intros ? ?; cbn [ne_body]; unfold on_ok;
           rewrite Hk by auto; reflexivity|]); cbn [Wrapped]; auto.
Qed.

Lemma run_repeat Q s bs h : (forall p, In p bs -> BuildsR (build p)) -> Runs Q s h ->
  Runs Q (SRepeat (Some (RCollect s bs))) h.
Proof.
  intros Hb Hr. apply Run_step; [eapply run_post; eauto|exact I|]. intros hf Hd.
  destruct (run_co _ _ _ _ Hr hf [] Hd) as (h' & r & [n Hn] & Hd' & HQ).
  destruct r as [evs|err].
  - exists (SRepeat (Some (RNext evs bs))), h', (inl (Some Noop)).
    split; [|split; [exact Hd'|apply run_repeat_next; eauto]].
    apply ne_intro. exists n. intros k Hk. cbn [ne_body]. rewrite Hn by auto. reflexivity.
  - exists (SRepeat None), h', (inr err). split; [|split; [exact Hd'|exact I]].
    apply ne_intro. exists n. intros k Hk. cbn [ne_body]. rewrite Hn by auto. reflexivity.
Qed.

Lemma run_roe Q contents s bs p h :
  (forall q, In q bs -> BuildsR (build q)) -> BuildsR (build p) -> Runs Q s h ->
  Runs Q (SRepeatOrElse (Some (ROEStart contents s bs p))) h.
Proof.
  intros Hb Hp Hr. destruct bs as [|b0 bs].
  - apply Run_step; [eapply run_post; eauto|exact I|]. intros hf Hd.
    destruct (Hp Q s h Hr hf Hd) as (h' & s' & E & Hd' & Hs').
    exists (SRepeatOrElse (Some (ROEFallback s'))), h', (inl (Some Noop)).
    split; [|split; [exact Hd'|]].
    + apply ne_intro. exists 0. intros k _. cbn [ne_body]. rewrite E. reflexivity.
    + cbn [Next]. revert Hs'.
      apply (run_pass (fun s => SRepeatOrElse (Some (ROEFallback s))) (SRepeatOrElse None)); [reflexivity|over].
  - eapply run_emit; [over|].
    apply (run_pass (fun s => SRepeatOrElse (Some (ROERepeat s))) (SRepeatOrElse None)); [reflexivity|over|].
    destruct contents.
    + apply run_contents; [|exact Hr]. apply (buildsR_pure (fun s => SRepeat (Some (RCollect s (b0 :: bs))))).
      intros. now apply run_repeat.
    + now apply run_repeat.
Qed.

(** ** All calls *)

Lemma buildsR_named name (c : ident -> option attr_cmd) : (forall i, exists a, c i = Some a) ->
  BuildsR (fun h s => attr_new h s name c).
Proof.
  intros Hc. unfold attr_new. destruct name as [name|err].
  - destruct (Hc name) as [a ->].
    apply (buildsR_pure (fun s => fallible_new (inl (SAttr (Some (AStart s a)))))).
    intros. now apply run_fallible, run_attr.
  - apply (buildsR_pure (fun s => fallible_new (inr (SEIdentifier err)))).
    intros. eapply run_failed, run_post; eauto.
Qed.
Lemma buildsR_error err : BuildsR (fun h s => Done h (fallible_new (inr err))).
Proof.
  apply (buildsR_pure (fun _ => fallible_new (inr err))). intros. eapply run_failed, run_post; eauto.
Qed.
Lemma buildsR_fallible bld : BuildsR bld ->
  BuildsR (fun h s => obind (bld h s) (fun h s => Done h (fallible_new (inl s)))).
Proof.
  intros Hb Q s h Hr hf Hd. destruct (Hb Q s h Hr hf Hd) as (h' & s' & -> & Hd' & Hs').
  exists h', (fallible_new (inl s')). split; [reflexivity|split; [exact Hd'|now apply run_fallible]].
Qed.

Lemma buildsR_pipe_of (p : pipeline) : (forall o, In o p -> BuildsR (build_op o)) -> BuildsR (build p).
Proof.
  induction p as [|o p IH]; intros Ho Q s h Hr hf Hd.
  - exists h, s. auto.
  - destruct (Ho o (or_introl eq_refl) Q s h Hr hf Hd) as (h' & s' & E & Hd' & Hs').
    cbn [build]. rewrite E. cbn [obind]. apply IH; auto. intros o' Ho'. apply Ho. now right.
Qed.

Lemma buildsR_op : forall o, BuildsR (build_op o).
Proof.
  apply op_sub_ind. intros o IH.
  assert (forall p, Sub o p -> BuildsR (build p)) as Hp.
  { intros p Hs. apply buildsR_pipe_of. eauto. }
  clear IH. destruct o; cbn [Sub] in Hp;
    try (apply (buildsR_named name); intros i; eexists; reflexivity).
  - change (BuildsR (build p)). now apply Hp.
  - now apply (buildsR_pure (fun s => s)).
  - now apply (buildsR_pure (fun s => s)).
  - intros Q s h Hr hf Hd. destruct (Hp p eq_refl Q s h Hr hf Hd) as (h' & s' & E & Hd' & Hs').
    exists h', (SApplyEither first s'). split; [|split; [exact Hd'|now apply run_either]].
    change (obind (build p (hf ∪ h) s) (fun h s => Done h (SApplyEither first s))
            = Done (hf ∪ h') (SApplyEither first s')). now rewrite E.
  - apply (buildsR_pure (fun s => STemplateApply (Some (TACollect s f)))).
    intros. now apply run_as_template.
  - destruct sel as [m|err]; [|apply buildsR_error].
    apply (buildsR_fallible _ (buildsR_select m b direct (fun k => Hp _ (ex_intro _ k eq_refl)))).
  - destruct sel as [m|err]; [|apply buildsR_error].
    apply (buildsR_fallible _ (buildsR_select_once m p direct (Hp _ eq_refl))).
  - apply (buildsR_pure SRemove). intros. now apply run_remove.
  - apply (buildsR_pure (fun s => prepend_new s (into_stream c))).
    intros. apply run_prepend; auto. intros. now apply run_into_stream.
  - apply (buildsR_pure (fun s => append_new s (into_stream c))).
    intros. apply run_append; auto. intros. now apply run_into_stream.
  - apply (buildsR_pure (fun s => replace_new s (into_stream c))).
    intros. apply run_prepend; auto using run_remove. intros. now apply run_into_stream.
  - apply (buildsR_pure (fun s => SRepeat (Some (RCollect s bs)))).
    intros. now apply run_repeat.
  - apply (buildsR_pure (fun s => SRepeatOrElse (Some (ROEStart false s bs p)))).
    intros. apply run_roe; auto.
  - apply (buildsR_pure (fun s => select_content_new s (CBUser p))).
    intros. apply run_contents; auto. now apply Hp.
  - destruct sel as [m|err]; [|apply buildsR_error].
    apply (buildsR_pure (fun s => fallible_new (inl (select_content_new s (CBSelect direct m b))))).
    intros. apply run_fallible, run_contents; auto. apply buildsR_select. eauto.
  - destruct sel as [m|err]; [|apply buildsR_error].
    apply (buildsR_pure (fun s => fallible_new (inl (select_content_new s (CBSelectOnce direct m p))))).
    intros. apply run_fallible, run_contents; auto. apply buildsR_select_once. eauto.
  - apply (buildsR_pure (fun s => select_content_new s CBRemove)).
    intros. apply run_contents; auto. apply (buildsR_pure SRemove). intros. now apply run_remove.
  - apply (buildsR_pure (fun s => select_content_new s (CBPrepend (into_stream c)))).
    intros. apply run_contents; auto. apply (buildsR_pure (fun s => prepend_new s (into_stream c))).
    intros. apply run_prepend; auto. intros. now apply run_into_stream.
  - apply (buildsR_pure (fun s => select_content_new s (CBAppend (into_stream c)))).
    intros. apply run_contents; auto. apply (buildsR_pure (fun s => append_new s (into_stream c))).
    intros. apply run_append; auto. intros. now apply run_into_stream.
  - apply (buildsR_pure (fun s => select_content_new s (CBReplace (into_stream c)))).
    intros. apply run_contents; auto. apply (buildsR_pure (fun s => replace_new s (into_stream c))).
    intros. apply run_prepend; auto using run_remove. intros. now apply run_into_stream.
  - apply (buildsR_pure (fun s => select_content_new s (CBRepeat bs))).
    intros. apply run_contents; auto. apply (buildsR_pure (fun s => SRepeat (Some (RCollect s bs)))).
    intros. now apply run_repeat.
  - apply (buildsR_pure (fun s => SRepeatOrElse (Some (ROEStart true s bs p)))).
    intros. apply run_roe; auto.
  - apply (buildsR_pure (fun s => SAttr (Some (AStart s (ARemoveAttribute id_ident))))).
    intros. now apply run_attr.
Qed.

Lemma transform_stops evs p : exists h r, Ev (fun n => transform n evs p) h r.
Proof.
  assert (Runs (fun _ => True) (STemplate evs 0) ∅) as Hr by (now apply run_template, post_intro).
  destruct (buildsR_pipe_of p (fun o _ => buildsR_op o) _ _ _ Hr ∅) as (h & s & E & Hd & Hs).
  { apply map_disjoint_empty_l. }
  destruct (run_co _ _ _ _ Hs ∅ [] Hd) as (h' & r & [n Hn] & _).
  exists (∅ ∪ h'), r, n. intros m Hm. unfold transform.
  rewrite map_empty_union in E. rewrite E. cbn [obind]. now apply Hn.
Qed.
Lemma transform_gives evs p : exists r, Gives evs p r.
Proof.
  destruct (transform_stops evs p) as (h & r & n & Hn). exists r. exists n, h. now apply Hn.
Qed.
Lemma transform_never_panics n evs p : transform n evs p <> Panicked.
Proof.
  intros Hp. destruct (transform_stops evs p) as (h & r & m & Hm).
  specialize (Hm (max n m) ltac:(lia)).
  pose proof (transform_panic n (max n m) evs p ltac:(lia) Hp). congruence.
Qed.

Lemma transform_outcome evs p :
  exists r n, forall m, n <= m -> exists h, transform m evs p = Done h r.
Proof.
  destruct (transform_stops evs p) as (h & r & n & Hn). exists r, n. intros m Hm. exists h. auto.
Qed.
Lemma transform_one_result evs p : exists r, Gives evs p r /\ forall r', Gives evs p r' -> r' = r.
Proof.
  destruct (transform_gives evs p) as [r Hr]. exists r. split; [exact Hr|].
  intros r' (n' & h' & H'). destruct Hr as (n & h & H). eapply transform_det; eauto.
Qed.
Lemma element_stops tag p :
  (exists n h r, with_transformed_element n tag p = Done h r) /\
  forall n, with_transformed_element n tag p <> Panicked.
Proof.
  unfold with_transformed_element. destruct tag as [tag|e]; cbn [with_element].
  - split.
    + destruct (transform_gives [if is_void_tag (id_str tag) then VoidTag tag [] else SelfClosedTag tag []]
                  [OSelectOnce false (inl (SelTag tag)) p]) as (r & n & h & H). eauto.
    + intros n. apply transform_never_panics.
  - split; [|discriminate]. exists 0. eauto.
Qed.
