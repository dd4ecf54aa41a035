(** Proofs for C68: every stream with state stops if its iterators end.

    [RobustProofs] for [MachineState]; the world may be any at each step. *)
From Coq Require Import String ZArith Lia.
From stdpp Require Import gmap.
From Verif Require Import Text Event Input Parse Selector Machine MachineState Trace StreamProofs
  SpecTransform SpecState SpecStop FuelProofs Template StateProofs3 StateProofs4.
Local Open Scope nat_scope.

Section Stops.
Context {W : Type}.
Local Notation strm := (wstrm W).
Local Notation heap := (gmap loc (wcell W)).
Local Notation op := (wop W).
Local Notation pipeline := (list (wop W)).
Local Notation step_out := (wout W (wstrm W * stream_result)).

(** ** Allocation *)

Lemma fresh_loc_above (h : heap) l c : h !! l = Some c -> (l < wfresh_loc h)%positive.
Proof.
  unfold wfresh_loc. revert l c.
  apply (map_fold_ind (fun (m : positive) (h : heap) =>
           forall l c, h !! l = Some c -> (l < m)%positive)).
  - intros l c H. now rewrite lookup_empty in H.
  - intros i x m r Hi IH l c H. destruct (decide (i = l)) as [->|Hn].
    + lia.
    + rewrite lookup_insert_ne in H by auto. specialize (IH _ _ H). lia.
Qed.
Lemma fresh_loc_none (h : heap) : h !! wfresh_loc h = None.
Proof.
  destruct (h !! wfresh_loc h) as [c|] eqn:E; auto.
  apply fresh_loc_above in E. lia.
Qed.

(** ** Eventually: with enough fuel *)

(** in some world ([fst x]), with enough fuel ([snd x]) *)
Definition Ev {A} (f : nat -> wout W A) (h : heap) (a : A) : Prop :=
  exists x : W * nat, forall m, snd x <= m -> f m = WDone (h, fst x) a.

Local Notation NE := (fun m => wne (wrun m)).
Local Notation SK := (fun m => wsk (wrun m)).
Local Notation DR := (fun m => wdr (wrun m)).

Lemma ev_S {A} (f g : nat -> wout W A) h a :
  (forall m, f (S m) = g m) -> Ev g h a -> Ev f h a.
Proof.
  intros Hf [n Hn]. exists (fst n, S (snd n)). intros [|m] Hm; cbn in Hm; [lia|]. rewrite Hf. apply Hn. lia.
Qed.
Lemma ev_det {A} (f : nat -> wout W A) h a h' a' : Ev f h a -> Ev f h' a' -> h = h' /\ a = a'.
Proof.
  intros [n Hn] [n' Hn']. specialize (Hn (max (snd n) (snd n'))). specialize (Hn' (max (snd n) (snd n'))).
  rewrite Hn in Hn' by lia. specialize (Hn' ltac:(lia)). injection Hn' as E1 _ E2. split; assumption.
Qed.

(** ** One step of a stream, in any frame and world *)

Definition StepF (f : nat -> heap * W -> strm -> step_out) (h : heap) (s : strm)
    (K : strm -> heap -> stream_result -> Prop) : Prop :=
  forall hf wd, hf ##ₘ h -> exists s' h' r,
    Ev (fun m => f m (hf ∪ h, wd) s) (hf ∪ h') (s', r) /\ hf ##ₘ h' /\ K s' h' r.

Lemma stepF_mono f h s (K K' : strm -> heap -> stream_result -> Prop) :
  (forall s' h' r, K s' h' r -> K' s' h' r) -> StepF f h s K -> StepF f h s K'.
Proof.
  intros HK H hf wd Hd. destruct (H hf wd Hd) as (s' & h' & r & E & Hd' & HK0).
  exists s', h', r. auto.
Qed.
Lemma stepF_frame f h h2 s (K : strm -> heap -> stream_result -> Prop) :
  h ⊆ h2 -> StepF f h s K ->
  StepF f h2 s (fun s' h2' r => exists h', h' ⊆ h2' /\ K s' h' r).
Proof.
  intros Hsub H hf wd Hd.
  destruct (H (hf ∪ (h2 ∖ h)) wd) as (s' & h' & r & E & Hd' & HK).
  - apply map_disjoint_union_l. split.
    + eapply map_disjoint_weaken_r; eauto.
    + now apply map_disjoint_difference_l.
  - assert (hf ∪ (h2 ∖ h) ∪ h = hf ∪ h2) as Eq.
    { rewrite <- (assoc_L (∪)). f_equal.
      rewrite map_union_comm by (now apply map_disjoint_difference_l).
      now apply map_difference_union. }
    rewrite Eq in E. apply map_disjoint_union_l in Hd' as [Hd1 Hd2].
    exists s', (h2 ∖ h ∪ h'), r. split; [|split].
    + now rewrite (assoc_L (∪)).
    + apply map_disjoint_union_r. split; auto.
      eapply map_disjoint_weaken_r; [exact Hd|]. apply map_subseteq_spec. intros i x Hx.
      apply lookup_difference_Some in Hx as [Hx _]. exact Hx.
    + exists h'. split; auto. now apply map_union_subseteq_r.
Qed.

(** The postcondition holds of a part of the heap. *)
Definition Post (Q : heap -> Prop) (h : heap) : Prop := exists hq, hq ⊆ h /\ Q hq.
Lemma post_mono Q h h' : h ⊆ h' -> Post Q h -> Post Q h'.
Proof. intros Hs (hq & H1 & H2). exists hq. split; auto. now transitivity h. Qed.
Lemma post_intro (Q : heap -> Prop) h : Q h -> Post Q h.
Proof. exists h. auto. Qed.
Lemma post_bind (Q R : heap -> Prop) h : (forall h, Q h -> Post R h) -> Post Q h -> Post R h.
Proof. intros HQ (hq & H1 & H2). eapply post_mono; eauto. Qed.

Lemma sk_ret H s H' s' r : r <> inl (Some Noop) ->
  Ev (fun m => wne (wrun m) H s) H' (s', r) -> Ev (fun m => wsk (wrun m) H s) H' (s', r).
Proof.
  intros Hr [n Hn]. exists (fst n, S (snd n)). intros [|m] Hm; cbn in Hm; [lia|]. cbn [wrun wsk]. unfold wsk_body.
  cbv zeta. rewrite (Hn m) by lia. cbn [wbind fst]. destruct r as [[[]|]|]; congruence.
Qed.

Lemma sk_noop H s H' s' (K : strm -> heap -> stream_result -> Prop) hf :
  Ev (fun m => wne (wrun m) H s) H' (s', inl (Some Noop)) ->
  (forall wd, exists s2 h2 r2, Ev (fun m => wsk (wrun m) (H', wd) s') (hf ∪ h2) (s2, r2) /\ K s2 h2 r2) ->
  exists s2 h2 r2, Ev (fun m => wsk (wrun m) H s) (hf ∪ h2) (s2, r2) /\ K s2 h2 r2.
Proof.
  intros [n Hn] H2. destruct (H2 (fst n)) as (s2 & h2 & r2 & [n2 Hn2] & HK). exists s2, h2, r2. split; [|exact HK].
  exists (fst n2, S (max (snd n) (snd n2))). intros [|m] Hm; cbn in Hm; [lia|]. cbn [wrun wsk].
  unfold wsk_body. rewrite (Hn m) by lia. cbn [wbind fst]. apply Hn2. lia.
Qed.

Lemma with_cell_step f h l s (K : strm -> heap -> stream_result -> Prop) :
  h !! l = None -> StepF f h s K ->
  StepF (fun m H _ => wwith_cell H l (f m)) (<[l := WCell s]> h) (WSShared l)
    (fun s' h' r => s' = WSShared l /\
       exists s1 h1, h' = <[l := WCell s1]> h1 /\ h1 !! l = None /\ K s1 h1 r).
Proof.
  intros Hl H hf wd Hd. apply map_disjoint_insert_r in Hd as [Hfl Hd].
  destruct (H (<[l := WBorrowed]> hf) wd) as (s1 & h1 & r & [n Hn] & Hd1 & HK).
  { apply map_disjoint_insert_l. auto. }
  apply map_disjoint_insert_l in Hd1 as [Hl1 Hd1].
  exists (WSShared l), (<[l := WCell s1]> h1), r. split; [|split].
  - exists n. intros m Hm. unfold wwith_cell. cbn [fst snd].
    rewrite lookup_union_r by auto. rewrite lookup_insert.
    assert (<[l := WBorrowed]> (hf ∪ <[l := WCell s]> h) = <[l := WBorrowed]> hf ∪ h) as ->.
    { rewrite <- insert_union_r by auto. rewrite insert_insert.
      now rewrite <- insert_union_l. }
    rewrite (Hn m) by auto. cbn [wbind fst snd]. f_equal. f_equal.
    rewrite <- insert_union_l, insert_insert. now rewrite insert_union_r by auto.
  - apply map_disjoint_insert_r. auto.
  - split; auto. exists s1, h1. auto.
Qed.

Lemma shared_ne (H : heap * W) l : forall m, wne (wrun (S m)) H (WSShared l) = wwith_cell H l (wne (wrun m)).
Proof. reflexivity. Qed.

Lemma shared_step h l s (K : strm -> heap -> stream_result -> Prop) :
  h !! l = None -> StepF NE h s K ->
  StepF NE (<[l := WCell s]> h) (WSShared l)
    (fun s' h' r => s' = WSShared l /\
       exists s1 h1, h' = <[l := WCell s1]> h1 /\ h1 !! l = None /\ K s1 h1 r).
Proof.
  intros Hl H hf wd Hd.
  destruct (with_cell_step _ _ _ _ _ Hl H hf wd Hd) as (s' & h' & r & E & Hd' & HK).
  exists s', h', r. split; [|auto]. eapply ev_S; [|exact E]. intros m. apply shared_ne.
Qed.

Lemma ne_intro H s H' x :
  Ev (fun m => wne_body (wrun m) H s) H' x -> Ev (fun m => wne (wrun m) H s) H' x.
Proof. apply ev_S. reflexivity. Qed.
Ltac ne_now := apply ne_intro; match goal with |- Ev (fun m => wne_body _ ?H _) _ _ =>
  exists (snd H, 0); intros ? ?; reflexivity end.

(** ** Streams that stop *)

(** The stream has ended and stays ended; [Q] holds of the heap and [P] of the stream. *)
Definition Dead (Q : heap -> Prop) (P : strm -> heap -> Prop) (s : strm) (h : heap) : Prop :=
  exists I : strm -> heap -> Prop, I s h /\
    forall s h, I s h ->
      Post Q h /\ P s h /\ StepF NE h s (fun s' h' r => r = inl None /\ I s' h').

Definition Next (X D : strm -> heap -> Prop) (s : strm) (h : heap) (r : stream_result) : Prop :=
  match r with
  | inl (Some _) => X s h
  | inl None => D s h
  | inr _ => True
  end.

(** The same as an inductive definition, for the next one. *)
Inductive NextI (X D : strm -> heap -> Prop) (s : strm) (h : heap) : stream_result -> Prop :=
| NextI_event ev : X s h -> NextI X D s h (inl (Some ev))
| NextI_end : D s h -> NextI X D s h (inl None)
| NextI_error err : NextI X D s h (inr err).

(** The stream produces finitely many events and then has ended, or fails; [Q] and [P]
    hold all the time. *)
Inductive Run (Q : heap -> Prop) (P : strm -> heap -> Prop) : strm -> heap -> Prop :=
| Run_dead s h : Dead Q P s h -> Run Q P s h
| Run_ne s h : Post Q h -> P s h ->
    StepF NE h s (NextI (Run Q P) (Dead Q P)) -> Run Q P s h.

Definition Any (_ : strm) (_ : heap) : Prop := True.
Notation Runs Q := (Run Q Any).

Lemma nextI_iff X D s h r : NextI X D s h r <-> Next X D s h r.
Proof.
  split.
  - intros []; simpl; auto.
  - destruct r as [[ev|]|err]; simpl; intros; now constructor.
Qed.
Lemma Run_step Q (P : strm -> heap -> Prop) s h : Post Q h -> P s h ->
  StepF NE h s (Next (Run Q P) (Dead Q P)) -> Run Q P s h.
Proof.
  intros HQ HP Hs. apply Run_ne; auto. eapply stepF_mono; [|exact Hs].
  intros. now apply nextI_iff.
Qed.

Lemma run_ind Q P (X : strm -> heap -> Prop) :
  (forall s h, Dead Q P s h -> X s h) ->
  (forall s h, Post Q h -> P s h ->
     StepF NE h s (Next (fun s h => Run Q P s h /\ X s h) (Dead Q P)) -> X s h) ->
  forall s h, Run Q P s h -> X s h.
Proof.
  intros HD IH. fix F 3. intros s h [s0 h0 Hd|s0 h0 HQ HP Hs].
  - now apply HD.
  - apply IH; [exact HQ|exact HP|]. intros hf wd Hdj.
    destruct (Hs hf wd Hdj) as (s' & h' & r & E & Hd' & HA).
    exists s', h', r. split; [exact E|split; [exact Hd'|]].
    destruct HA as [ev HA|HA|err]; cbn [Next]; [|exact HA|exact I].
    split; [exact HA|apply F; exact HA].
Qed.

Lemma dead_step Q P s h : Dead Q P s h ->
  StepF NE h s (fun s' h' r => r = inl None /\ Dead Q P s' h').
Proof.
  intros (I & Hi & HI). eapply stepF_mono; [|apply (HI _ _ Hi)].
  intros s' h' r [-> H']. split; [reflexivity|]. exists I. auto.
Qed.
Lemma dead_post Q P s h : Dead Q P s h -> Post Q h.
Proof. intros (I & Hi & HI). apply (HI _ _ Hi). Qed.
Lemma dead_pred Q P s h : Dead Q P s h -> P s h.
Proof. intros (I & Hi & HI). apply (HI _ _ Hi). Qed.

Lemma run_post Q P s h : Run Q P s h -> Post Q h.
Proof. intros []; [eapply dead_post; eauto|assumption]. Qed.
Lemma run_pred Q P s h : Run Q P s h -> P s h.
Proof. intros []; [eapply dead_pred; eauto|assumption]. Qed.
Lemma run_next Q P s h : Run Q P s h -> StepF NE h s (Next (Run Q P) (Dead Q P)).
Proof.
  intros [s0 h0 Hd|s0 h0 HQ HP Hs].
  2:{ eapply stepF_mono; [|exact Hs]. intros. now apply nextI_iff. }
  eapply stepF_mono; [|apply dead_step; exact Hd]. intros s' h' r [-> H']. exact H'.
Qed.

(** A stream that has ended and does not touch the heap. *)
Definition Over (s : strm) : Prop := forall H, Ev (fun m => wne (wrun m) H s) (fst H) (s, inl None).

Lemma over_dead Q s h : Over s -> Post Q h -> Dead Q Any s h.
Proof.
  intros Ho HQ. exists (fun s' h' => s' = s /\ Post Q h'). split; [auto|].
  intros s' h' [-> HQ']. split; [exact HQ'|split; [exact I|]].
  intros hf wd Hd. exists s, h', (inl None). split; [apply Ho|auto].
Qed.

Lemma run_mono Q s h : Runs Q s h -> forall h2, h ⊆ h2 -> Runs Q s h2.
Proof.
  revert s h. apply (run_ind Q Any (fun s h => forall h2, h ⊆ h2 -> Runs Q s h2)).
  - intros s h (I & Hi & HI) h2 Hsub. apply Run_dead.
    exists (fun s h2 => exists h, h ⊆ h2 /\ I s h). split; [eauto|].
    intros s' h2' (h' & Hsub' & Hi'). destruct (HI _ _ Hi') as (HQ & _ & Hs).
    split; [eapply post_mono; eauto|split; [exact Logic.I|]].
    eapply stepF_mono; [|eapply stepF_frame; eauto].
    intros s3 h3 r (h4 & Hsub3 & -> & Hi3). eauto.
  - intros s h HQ _ Hs h2 Hsub. apply Run_step; [eapply post_mono; eauto|exact I|].
    eapply stepF_mono; [|eapply stepF_frame; eauto].
    intros s' h2' r (h' & Hsub' & HA). destruct r as [[ev|]|err]; cbn [Next] in *; [|  |exact I].
    + now apply HA.
    + destruct HA as (I & Hi & HI).
      exists (fun s h2 => exists h, h ⊆ h2 /\ I s h). split; [eauto|].
      intros s3 h3 (h4 & Hsub4 & Hi4). destruct (HI _ _ Hi4) as (HQ4 & _ & Hs4).
      split; [eapply post_mono; eauto|split; [exact Logic.I|]].
      eapply stepF_mono; [|eapply stepF_frame; eauto].
      intros s5 h5 r5 (h6 & Hsub6 & -> & Hi6). eauto.
Qed.

(** ** Skipping [Noop]s *)

Lemma dead_sk Q P s h : Dead Q P s h ->
  StepF SK h s (fun s' h' r => r = inl None /\ Dead Q P s' h').
Proof.
  intros H hf wd Hd. destruct (dead_step _ _ _ _ H hf wd Hd) as (s' & h' & r & E & Hd' & -> & H').
  exists s', h', (inl None). split; [|auto]. apply sk_ret; [discriminate|exact E].
Qed.

(** Induction, looking one [next_event] and one [next_event_skip_noop] ahead. *)
Lemma run_ind_both Q P (X : strm -> heap -> Prop) :
  (forall s h, Dead Q P s h -> X s h) ->
  (forall s h, Post Q h -> P s h ->
     StepF NE h s (Next (fun s h => Run Q P s h /\ X s h) (Dead Q P)) ->
     StepF SK h s (Next (fun s h => Run Q P s h /\ X s h) (Dead Q P)) -> X s h) ->
  forall s h, Run Q P s h ->
  X s h /\ StepF SK h s (Next (fun s h => Run Q P s h /\ X s h) (Dead Q P)).
Proof.
  intros HD HX. apply run_ind.
  - intros s h H. split; [now apply HD|].
    eapply stepF_mono; [|apply dead_sk; exact H]. intros s' h' r [-> H']. exact H'.
  - intros s h HQ HP Hs.
    assert (StepF SK h s (Next (fun s h => Run Q P s h /\ X s h) (Dead Q P))) as Hsk.
    { intros hf wd Hd. destruct (Hs hf wd Hd) as (s' & h' & r & E & Hd' & HA).
      assert (r = inl (Some Noop) \/ r <> inl (Some Noop)) as [->|Hn].
      { destruct r as [[[]|]|]; auto; right; discriminate. }
      - destruct HA as (_ & _ & Hsk). eapply sk_noop; [exact E|]. intros wd'. exact (Hsk hf wd' Hd').
      - exists s', h', r. split; [now apply sk_ret|split; [exact Hd'|]].
        destruct r as [[ev|]|err]; cbn [Next] in *; [|exact HA|exact I].
        split; apply HA. }
    split; [|exact Hsk]. apply HX; auto. eapply stepF_mono; [|exact Hs].
    intros s' h' r HA. destruct r as [[ev|]|err]; cbn [Next] in *; [|exact HA|exact I].
    split; apply HA.
Qed.

Lemma run_ind_sk Q P (X : strm -> heap -> Prop) :
  (forall s h, Dead Q P s h -> X s h) ->
  (forall s h, Post Q h -> P s h ->
     StepF SK h s (Next (fun s h => Run Q P s h /\ X s h) (Dead Q P)) -> X s h) ->
  forall s h, Run Q P s h -> X s h.
Proof.
  intros HD HX s h Hr. apply (run_ind_both Q P X) in Hr; [apply Hr|exact HD|auto].
Qed.
Lemma run_sk Q P s h : Run Q P s h -> StepF SK h s (Next (Run Q P) (Dead Q P)).
Proof.
  intros Hr. apply (run_ind_both Q P Any) in Hr; [|easy|easy].
  eapply stepF_mono; [|apply Hr]. intros s' h' r HA.
  destruct r as [[ev|]|err]; cbn [Next] in *; [|exact HA|exact I]. apply HA.
Qed.

(** A property of all states is shown by looking one [next_event_skip_noop] ahead. *)
Lemma run_strengthen Q P (X : strm -> heap -> Prop) :
  (forall s h, Dead Q P s h -> X s h) ->
  (forall s h, Post Q h -> P s h ->
     StepF SK h s (Next (Run Q (fun s h => P s h /\ X s h)) (Dead Q P)) -> X s h) ->
  forall s h, Run Q P s h -> Run Q (fun s h => P s h /\ X s h) s h.
Proof.
  intros HD HX. set (PX := fun s h => P s h /\ X s h).
  assert (forall s h, Dead Q P s h -> Dead Q PX s h) as HDX.
  { intros s h H. exists (Dead Q P). split; [exact H|]. intros s' h' H'.
    split; [eapply dead_post; eauto|split; [split; [eapply dead_pred; eauto|auto]|]].
    now apply dead_step. }
  intros s h Hr. apply (run_ind_both Q P (Run Q PX)) in Hr; [apply Hr| |].
  - intros. now apply Run_dead, HDX.
  - clear s h Hr. intros s h HQ HP Hne Hsk. apply Run_step; [exact HQ|split; [exact HP|]|].
    + apply HX; auto. eapply stepF_mono; [|exact Hsk]. intros s' h' r HA.
      destruct r as [[ev|]|err]; cbn [Next] in *; [apply HA|exact HA|exact I].
    + eapply stepF_mono; [|exact Hne]. intros s' h' r HA.
      destruct r as [[ev|]|err]; cbn [Next] in *; [apply HA|now apply HDX|exact I].
Qed.

(** The property [Q] may be that the stream itself stops. *)
Lemma run_self Q (P : strm -> heap -> Prop) l h : (forall s h, P s h -> s = WSShared l) -> Run Q P (WSShared l) h ->
  Runs (Run Q P (WSShared l)) (WSShared l) h.
Proof.
  intros HP Hr0.
  assert (forall s h, Run Q P s h -> Runs (Run Q P (WSShared l)) s h) as G; [|now apply G].
  clear h Hr0.
  assert (forall s h, Dead Q P s h -> Dead (Run Q P (WSShared l)) Any s h) as HDX.
  { intros s h H. exists (Dead Q P). split; [exact H|]. intros s' h' H'.
    split; [|split; [exact I|now apply dead_step]]. apply post_intro.
    rewrite <- (HP s' h') by (eapply dead_pred; eauto). now apply Run_dead. }
  intros s h H. pose proof H as H0. revert s h H H0.
  apply (run_ind Q P (fun s h => Run Q P s h -> Runs (Run Q P (WSShared l)) s h)).
  - intros. now apply Run_dead, HDX.
  - intros s h HQ Hp Hs Hr. apply Run_step; [|exact I|].
    + apply post_intro. now rewrite <- (HP s h).
    + eapply stepF_mono; [|exact Hs]. intros s' h' r HA.
      destruct r as [[ev|]|err]; cbn [Next] in *; [now apply HA|now apply HDX|exact I].
Qed.

(** ** Streams around another stream *)

(** [v] is a stream around [s] that takes its next event from [s]; what it does with the
    result. *)
Definition Wrapped (J : strm -> strm -> Prop) (N : strm -> Prop) (s v : strm)
    (r r' : stream_result) : Prop :=
  match r' with
  | inr _ => True
  | inl None => Over v /\ forall err, r <> inr err
  | inl (Some _) =>
      match r with
      | inl (Some _) => J s v \/ Over v
      | inl None => N v
      | inr _ => False
      end
  end.

Definition Wraps (f : nat -> heap * W -> strm -> step_out) (J : strm -> strm -> Prop)
    (N : strm -> Prop) : Prop :=
  forall s v H H' s' r, J s v -> Ev (fun m => f m H s) H' (s', r) ->
    exists v' r', Ev (fun m => wne (wrun m) H v) H' (v', r') /\ Wrapped J N s' v' r r'.

Lemma wrap_step f (Q1 Q : heap -> Prop) (J : strm -> strm -> Prop) (N : strm -> Prop) s v h :
  (forall h, Q1 h -> Post Q h) ->
  (forall v h, N v -> Post Q1 h -> Runs Q v h) ->
  Wraps f J N -> J s v -> Post Q1 h ->
  StepF f h s (Next (fun s h => Runs Q1 s h /\ forall v, J s v -> Runs Q v h) (Dead Q1 Any)) ->
  Runs Q v h.
Proof.
  intros HQ HN HJ Hj Hp Hs. apply Run_step; [eapply post_bind; eauto|exact I|].
  intros hf wd Hd. destruct (Hs hf wd Hd) as (s' & h' & r & E & Hd' & HA).
  destruct (HJ _ _ _ _ _ _ Hj E) as (v' & r' & E' & HW).
  exists v', h', r'. split; [exact E'|split; [exact Hd'|]].
  destruct r' as [[ev'|]|err']; cbn [Next Wrapped] in *; [| |exact I].
  - destruct r as [[ev|]|err]; [| |contradiction].
    + destruct HA as [Hr HA]. destruct HW as [HW|HW]; [now apply HA|].
      apply Run_dead, over_dead; [exact HW|]. eapply post_bind; [exact HQ|].
      eapply run_post; eauto.
    + apply HN; [exact HW|]. eapply dead_post; eauto.
  - destruct HW as [HW Hne]. apply over_dead; [exact HW|]. eapply post_bind; [exact HQ|].
    destruct r as [[ev|]|err]; [|eapply dead_post; eauto|now destruct (Hne err)].
    eapply run_post, HA.
Qed.

Lemma run_wrap (Q1 Q : heap -> Prop) (J : strm -> strm -> Prop) (N : strm -> Prop) s v h :
  (forall h, Q1 h -> Post Q h) ->
  (forall v h, N v -> Post Q1 h -> Runs Q v h) ->
  Wraps NE J N -> J s v -> Runs Q1 s h -> Runs Q v h.
Proof.
  intros HQ HN HJ Hj Hr. revert v Hj. revert s h Hr.
  apply (run_ind Q1 Any (fun s h => forall v, J s v -> Runs Q v h)).
  - intros s h HD v Hj. eapply (wrap_step NE Q1 Q J N s v h); eauto.
    + eapply dead_post; eauto.
    + eapply stepF_mono; [|apply dead_step; exact HD]. intros s' h' r [-> H']. exact H'.
  - intros s h Hp _ Hs v Hj. eapply (wrap_step NE Q1 Q J N s v h); eauto.
Qed.
Lemma run_wrap_sk (Q1 Q : heap -> Prop) (J : strm -> strm -> Prop) (N : strm -> Prop) s v h :
  (forall h, Q1 h -> Post Q h) ->
  (forall v h, N v -> Post Q1 h -> Runs Q v h) ->
  Wraps SK J N -> J s v -> Runs Q1 s h -> Runs Q v h.
Proof.
  intros HQ HN HJ Hj Hr. revert v Hj. revert s h Hr.
  apply (run_ind_sk Q1 Any (fun s h => forall v, J s v -> Runs Q v h)).
  - intros s h HD v Hj. eapply (wrap_step SK Q1 Q J N s v h); eauto.
    + eapply dead_post; eauto.
    + eapply stepF_mono; [|apply dead_sk; exact HD]. intros s' h' r [-> H']. exact H'.
  - intros s h Hp _ Hs v Hj. eapply (wrap_step SK Q1 Q J N s v h); eauto.
Qed.

(** One step that does not touch the heap. *)
Lemma run_emit Q s s' ev h :
  (forall H, Ev (fun m => wne (wrun m) H s) (fst H) (s', inl (Some ev))) -> Runs Q s' h -> Runs Q s h.
Proof.
  intros Hs Hr. apply Run_step; [eapply run_post; eauto|exact I|].
  intros hf wd Hd. exists s', h, (inl (Some ev)). split; [exact (Hs (hf ∪ h, wd))|auto].
Qed.
Lemma run_over Q s h : Over s -> Post Q h -> Runs Q s h.
Proof. intros. now apply Run_dead, over_dead. Qed.
Lemma run_finish Q s s' h :
  (forall H, Ev (fun m => wne (wrun m) H s) (fst H) (s', inl None)) -> Over s' -> Post Q h -> Runs Q s h.
Proof.
  intros Hs Ho HQ. apply Run_step; [exact HQ|exact I|].
  intros hf wd Hd. exists s', h, (inl None). split; [exact (Hs (hf ∪ h, wd))|split; [auto|]]. now apply over_dead.
Qed.
Lemma run_fail Q s s' err h :
  (forall H, Ev (fun m => wne (wrun m) H s) (fst H) (s', inr err)) -> Post Q h -> Runs Q s h.
Proof.
  intros Hs HQ. apply Run_step; [exact HQ|exact I|].
  intros hf wd Hd. exists s', h, (inr err). split; [exact (Hs (hf ∪ h, wd))|split; [auto|exact I]].
Qed.

Ltac over := let H := fresh in intros H; destruct H; ne_now.

(** ** Sources *)

Lemma run_template Q evs i h : Post Q h -> Runs Q (WSTemplate evs i) h.
Proof.
  intros HQ. remember (length evs - i) as n eqn:En. revert i En.
  induction n as [|n IH]; intros i En; destruct (nth_error evs i) as [ev|] eqn:E.
  - assert (i < length evs) by (apply nth_error_Some; congruence). lia.
  - apply run_over; [|exact HQ]. intros [H wd]. apply ne_intro. exists (wd, 0). intros m _. cbn [wne_body].
    now rewrite E.
  - apply (run_emit _ _ (WSTemplate evs (S i)) ev).
    + intros [H wd]. apply ne_intro. exists (wd, 0). intros m _. cbn [wne_body]. now rewrite E.
    + apply IH. assert (i < length evs) by (apply nth_error_Some; congruence). lia.
  - apply nth_error_None in E. lia.
Qed.
Lemma run_user Q evs stop h : Post Q h -> Runs Q (WSUser evs stop) h.
Proof.
  intros HQ. induction evs as [|ev evs IH].
  - destruct stop as [err|].
    + apply (run_fail _ _ (WSUser [] None) err); [over|exact HQ].
    + apply run_over; [over|exact HQ].
  - apply (run_emit _ _ (WSUser evs stop) ev); [over|exact IH].
Qed.
Lemma run_content_none Q d h : Post Q h -> Runs Q (WSContent d) h.
Proof.
  intros HQ. assert (Runs Q (WSContent None) h) as Hn by (apply run_over; [over|exact HQ]).
  destruct d as [d|]; [|exact Hn]. apply (run_emit _ _ (WSContent None) (Data d)); [over|exact Hn].
Qed.

(** ** Simple streams *)

Ltac wraps E :=
  let n := fresh "n" in let Hn := fresh "Hn" in
  destruct E as [n Hn]; eexists _, _; split;
  [apply ne_intro; exists n; intros ? ?; cbn [wne_body];
   unfold wpassthrough, won_ok; rewrite Hn by assumption; reflexivity|].

Lemma run_pass (C : strm -> strm) (D : strm) Q s h :
  (forall e h s, wne_body e h (C s) = wpassthrough (wne e h s) D C) -> Over D ->
  Runs Q s h -> Runs Q (C s) h.
Proof.
  intros HC HD. apply (run_wrap Q Q (fun s v => v = C s) (fun _ => False)); auto.
  - intros. now apply post_intro.
  - contradiction.
  - intros s0 v H H' s' r -> [n Hn].
    exists (match r with inl (Some _) => C s' | _ => D end), r. split.
    + apply ne_intro. exists n. intros m Hm. rewrite HC. unfold wpassthrough, won_ok.
      rewrite Hn by auto. now destruct r as [[]|].
    + destruct r as [[ev|]|err]; simpl; auto.
Qed.

Lemma run_fallible_emit Q s h : Runs Q s h -> Runs Q (WSFallible (Some (WFEmit s))) h.
Proof. apply (run_pass (fun s => WSFallible (Some (WFEmit s))) (WSFallible None)); [reflexivity|over]. Qed.
Lemma run_fallible Q s h : Runs Q s h -> Runs Q (wfallible_new (inl s)) h.
Proof.
  intros Hr. apply (run_emit _ _ (WSFallible (Some (WFEmit s))) Noop); [over|].
  now apply run_fallible_emit.
Qed.
Lemma run_failed Q e h : Post Q h -> Runs Q (wfallible_new (inr e)) h.
Proof. intros. apply (run_fail _ _ (WSFallible None) e); [over|assumption]. Qed.

Lemma run_into_stream Q c h : Post Q h -> Runs Q (winto_stream c) h.
Proof.
  intros HQ. revert c. fix F 1. intros [evs|d|v|s|z|evs stop|[c|e]]; cbn [winto_stream].
  - now apply run_template.
  - now apply run_content_none.
  - now apply run_content_none.
  - now apply run_content_none.
  - now apply run_content_none.
  - now apply run_user.
  - now apply run_fallible.
  - now apply run_failed.
Qed.
Lemma run_live Q f h : EndsEvents f -> Post Q h -> Runs Q (WSLive (Some f)) h.
Proof.
  intros Hf HQ. induction Hf as [f _ IH]. apply Run_step; [exact HQ|exact I|]. intros hf wd Hd.
  destruct (f 0 wd) as [wd2 [[ev|]|err]] eqn:Ef.
  - exists (WSLive (Some (fun n => f (S n)))), h, (inl (Some ev)). split; [|split; [exact Hd|]].
    + apply ne_intro. exists (wd2, 0). intros k _. cbn [wne_body fst snd]. rewrite Ef. reflexivity.
    + cbn [Next]. eapply IH; eauto.
  - exists (WSLive None), h, (inl None). split; [|split; [exact Hd|]].
    + apply ne_intro. exists (wd2, 0). intros k _. cbn [wne_body fst snd]. rewrite Ef. reflexivity.
    + apply over_dead; [over|exact HQ].
  - exists (WSLive None), h, (inr err). split; [|split; [exact Hd|exact I]].
    apply ne_intro. exists (wd2, 0). intros k _. cbn [wne_body fst snd]. rewrite Ef. reflexivity.
Qed.
Lemma run_content_stream Q c h : (forall f, Reads c f -> EndsEvents f) -> Post Q h ->
  Runs Q (wcontent_stream c) h.
Proof.
  intros Hc HQ. induction c as [c|f|c IH]; cbn [wcontent_stream Reads] in *.
  - now apply run_into_stream.
  - apply run_live; [now apply Hc|exact HQ].
  - apply run_fallible, IH. exact Hc.
Qed.

Lemma run_either Q b s h : Runs Q s h -> Runs Q (WSApplyEither b s) h.
Proof.
  assert (forall H H' s s' r, Ev (fun m => wne (wrun m) H s) H' (s', r) ->
            Ev (fun m => wne (wrun m) H (WSApplyEither b s)) H' (WSApplyEither b s', r)) as HE.
  { intros H H' s0 s' r [n Hn]. apply ne_intro. exists n. intros m Hm. cbn [wne_body].
    now rewrite Hn by auto. }
  assert (forall s h, Dead Q Any s h -> Dead Q Any (WSApplyEither b s) h) as HDX.
  { intros s0 h0 HD. exists (fun v h => exists s, v = WSApplyEither b s /\ Dead Q Any s h).
    split; [eauto|]. intros v h1 (s1 & -> & H1). split; [eapply dead_post; eauto|split; [exact I|]].
    intros hf wd Hd. destruct (dead_step _ _ _ _ H1 hf wd Hd) as (s' & h' & r & E & Hd' & -> & H').
    eexists _, _, _. split; [apply HE; exact E|]. eauto. }
  revert s h. apply run_ind.
  - intros. now apply Run_dead, HDX.
  - intros s h HQ _ Hs. apply Run_step; [exact HQ|exact I|]. intros hf wd Hd.
    destruct (Hs hf wd Hd) as (s' & h' & r & E & Hd' & HA).
    eexists _, _, _. split; [apply HE; exact E|split; [exact Hd'|]].
    destruct r as [[ev|]|err]; cbn [Next] in *; [apply HA|now apply HDX|exact I].
Qed.

Lemma run_peek Q s b h : Runs Q s h -> Runs Q (WSPeek s b) h.
Proof.
  assert (forall H H' s s' r, Ev (fun m => wsk (wrun m) H s) H' (s', r) ->
            Ev (fun m => wne (wrun m) H (WSPeek s None)) H' (WSPeek s' None, r)) as HE.
  { intros H H' s0 s' r [n Hn]. apply ne_intro. exists n. intros m Hm. cbn [wne_body].
    unfold won_ok. rewrite Hn by auto. now destruct r as [[]|]. }
  assert (forall s h, Dead Q Any s h -> Dead Q Any (WSPeek s None) h) as HDX.
  { intros s0 h0 HD. exists (fun v h => exists s, v = WSPeek s None /\ Dead Q Any s h).
    split; [eauto|]. intros v h1 (s1 & -> & H1). split; [eapply dead_post; eauto|split; [exact I|]].
    intros hf wd Hd. destruct (dead_sk _ _ _ _ H1 hf wd Hd) as (s' & h' & r & E & Hd' & -> & H').
    eexists _, _, _. split; [apply HE; exact E|]. eauto. }
  assert (forall s h, Runs Q s h -> Runs Q (WSPeek s None) h) as Hn.
  { apply run_ind_sk.
    - intros. now apply Run_dead, HDX.
    - intros s1 h1 HQ _ Hs. apply Run_step; [exact HQ|exact I|]. intros hf wd Hd.
      destruct (Hs hf wd Hd) as (s' & h' & r & E & Hd' & HA).
      eexists _, _, _. split; [apply HE; exact E|split; [exact Hd'|]].
      destruct r as [[ev|]|err]; cbn [Next] in *; [apply HA|now apply HDX|exact I]. }
  intros Hr. destruct b as [ev|]; [|now apply Hn].
  apply (run_emit _ _ (WSPeek s None) ev); [over|now apply Hn].
Qed.

Lemma run_remove Q s h : Runs Q s h -> Runs Q (WSRemove s) h.
Proof.
  assert (forall s h, Dead Q Any s h -> Dead Q Any (WSRemove s) h) as HDX.
  { intros s0 h0 HD. exists (fun v h => exists s, v = WSRemove s /\ Dead Q Any s h).
    split; [eauto|]. intros v h1 (s1 & -> & H1). split; [eapply dead_post; eauto|split; [exact I|]].
    intros hf wd Hd. destruct (dead_step _ _ _ _ H1 hf wd Hd) as (s' & h' & r & [n Hn] & Hd' & -> & H').
    exists (WSRemove s'), h', (inl None). split; [|eauto].
    apply ne_intro. exists (fst n, S (snd n)). intros [|m] Hm; cbn in Hm; [lia|]. cbn [wne_body wrun wdr].
    unfold wdr_body. now rewrite Hn by lia. }
  assert (forall s h, Runs Q s h -> Post Q h /\
    StepF DR h s (fun s' h' r => match r with
      | inl (Some _) => False
      | inl None => Dead Q Any s' h'
      | inr _ => True
      end)) as Hdr.
  { apply run_ind.
    - intros s1 h1 HD. split; [eapply dead_post; eauto|]. intros hf wd Hd.
      destruct (dead_step _ _ _ _ HD hf wd Hd) as (s' & h' & r & [n Hn] & Hd' & -> & H').
      exists (WSRemove s'), h', (inl None). split; [|auto].
      exists (fst n, S (snd n)). intros [|m] Hm; cbn in Hm; [lia|]. cbn [wrun wdr]. unfold wdr_body. now rewrite Hn by lia.
    - intros s1 h1 HQ _ Hs. split; [exact HQ|]. intros hf wd Hd.
      destruct (Hs hf wd Hd) as (s' & h' & r & [n Hn] & Hd' & HA).
      destruct r as [[ev|]|err]; cbn [Next] in HA.
      + destruct HA as (_ & _ & HA). destruct (HA hf (fst n) Hd') as (s2 & h2 & r2 & [n2 Hn2] & Hd2 & HA2).
        exists s2, h2, r2. split; [|auto]. exists (fst n2, S (max (snd n) (snd n2))). intros [|m] Hm; cbn in Hm; [lia|].
        cbn [wrun wdr]. unfold wdr_body. rewrite Hn by lia. cbn [wbind]. apply Hn2. lia.
      + exists (WSRemove s'), h', (inl None). split; [|auto].
        exists (fst n, S (snd n)). intros [|m] Hm; cbn in Hm; [lia|]. cbn [wrun wdr]. unfold wdr_body. now rewrite Hn by lia.
      + exists (WSRemove s'), h', (inr err). split; [|auto].
        exists (fst n, S (snd n)). intros [|m] Hm; cbn in Hm; [lia|]. cbn [wrun wdr]. unfold wdr_body. now rewrite Hn by lia. }
  intros Hr. destruct (Hdr _ _ Hr) as [HQ Hs]. apply Run_step; [exact HQ|exact I|].
  intros hf wd Hd. destruct (Hs hf wd Hd) as (s' & h' & r & E & Hd' & HA).
  exists s', h', r. split; [apply ne_intro; exact E|split; [exact Hd'|]].
  destruct r as [[ev|]|err]; cbn [Next] in *; [contradiction|exact HA|exact I].
Qed.

Lemma run_co Q P s h : Run Q P s h -> forall hf wd acc, hf ##ₘ h ->
  exists h' r, Ev (fun m => wco (wrun m) (hf ∪ h, wd) s acc) (hf ∪ h') r /\ hf ##ₘ h' /\
    (forall x, r = inl x -> Post Q h').
Proof.
  assert (forall H s s' H' acc, Ev (fun m => wsk (wrun m) H s) H' (s', inl None) ->
            Ev (fun m => wco (wrun m) H s acc) H' (inl acc)) as HEn.
  { intros H s0 s' H' acc [n Hn]. exists (fst n, S (snd n)). intros [|m] Hm; cbn in Hm; [lia|]. cbn [wrun wco].
    unfold wco_body. now rewrite Hn by lia. }
  revert s h. apply (run_ind_sk Q P (fun s h => forall hf wd acc, hf ##ₘ h ->
  exists h' r, Ev (fun m => wco (wrun m) (hf ∪ h, wd) s acc) (hf ∪ h') r /\ hf ##ₘ h' /\
    (forall x, r = inl x -> Post Q h'))).
  - intros s h HD hf wd acc Hd. destruct (dead_sk _ _ _ _ HD hf wd Hd) as (s' & h' & r & E & Hd' & -> & H').
    exists h', (inl acc). split; [eapply HEn; eauto|split; [auto|]].
    intros. eapply dead_post; eauto.
  - intros s h HQ _ Hs hf wd acc Hd. destruct (Hs hf wd Hd) as (s' & h' & r & E & Hd' & HA).
    destruct r as [[ev|]|err]; cbn [Next] in HA.
    + destruct HA as [_ HA]. destruct E as [n Hn].
      destruct (HA hf (fst n) (acc ++ [ev]) Hd') as (h2 & r2 & [n2 Hn2] & Hd2 & HQ2).
      exists h2, r2. split; [|auto].
      exists (fst n2, S (max (snd n) (snd n2))). intros [|m] Hm; cbn in Hm; [lia|]. cbn [wrun wco]. unfold wco_body.
      rewrite Hn by lia. cbn [wbind]. apply Hn2. lia.
    + exists h', (inl acc). split; [eapply HEn; eauto|split; [auto|]].
      intros. eapply dead_post; eauto.
    + exists h', (inr err). split; [|split; [auto|discriminate]].
      destruct E as [n Hn]. exists (fst n, S (snd n)). intros [|m] Hm; cbn in Hm; [lia|]. cbn [wrun wco].
      unfold wco_body. now rewrite Hn by lia.
Qed.

Lemma run_combine_second Q s h : Runs Q s h -> Runs Q (WSCombine (Some (WCmbSecond s))) h.
Proof.
  apply (run_wrap_sk Q Q (fun s v => v = WSCombine (Some (WCmbSecond s))) (fun _ => False)); auto.
  - intros. now apply post_intro.
  - contradiction.
  - intros s0 v H H' s' r -> [n Hn].
    exists (match r with inl (Some _) => WSCombine (Some (WCmbSecond s')) | _ => WSCombine None end), r.
    split.
    + apply ne_intro. exists n. intros m Hm. cbn [wne_body]. unfold wpassthrough, won_ok.
      rewrite Hn by auto. now destruct r as [[]|].
    + destruct r as [[ev|]|err]; cbn [Wrapped]; auto. split; [over|discriminate].
Qed.
Lemma run_combine (Q1 Q : heap -> Prop) s1 s2 h :
  (forall h, Q1 h -> Runs Q s2 h) -> Runs Q1 s1 h ->
  Runs Q (WSCombine (Some (WCmbFirst s1 s2))) h.
Proof.
  intros H2.
  apply (run_wrap_sk Q1 Q (fun s v => v = WSCombine (Some (WCmbFirst s s2)))
           (fun v => v = WSCombine (Some (WCmbSecond s2)))); auto.
  - intros. eapply run_post; eauto.
  - intros v h0 -> (hq & Hsub & HQ). eapply run_mono; [|exact Hsub].
    now apply run_combine_second, H2.
  - intros s0 v H H' s' r -> [n Hn].
    exists (match r with
            | inl (Some _) => WSCombine (Some (WCmbFirst s' s2))
            | inl None => WSCombine (Some (WCmbSecond s2))
            | inr _ => WSCombine None end), (seq_result r).
    split.
    + apply ne_intro. exists n. intros m Hm. cbn [wne_body]. unfold wpassthrough, won_ok.
      rewrite Hn by auto. now destruct r as [[]|].
    + destruct r as [[ev|]|err]; cbn [seq_result Wrapped]; auto.
Qed.
Lemma run_append Q s n h : (forall h, Post Q h -> Runs Q n h) -> Runs Q s h ->
  Runs Q (wappend_new s n) h.
Proof. intros Hn. apply run_combine. intros. now apply Hn, post_intro. Qed.
Lemma run_prepend Q s n h : (forall Q h, Post Q h -> Runs Q n h) -> Runs Q s h ->
  Runs Q (wprepend_new s n) h.
Proof.
  intros Hn Hr. apply (run_combine (Runs Q s)); [auto|]. now apply Hn, post_intro.
Qed.

(** Streams that look at the first event and then forward. *)
Lemma run_start_sk Q s v h :
  Runs Q s h ->
  (forall H H' s' r, Ev (fun m => wsk (wrun m) H s) H' (s', r) ->
     exists v' r', Ev (fun m => wne (wrun m) H v) H' (v', r') /\
       match r' with
       | inr _ => True
       | inl _ => forall h', Next (Runs Q) (Dead Q Any) s' h' r -> Next (Runs Q) (Dead Q Any) v' h' r'
       end) ->
  Runs Q v h.
Proof.
  intros Hr Hw. apply Run_step; [eapply run_post; eauto|exact I|]. intros hf wd Hd.
  destruct (run_sk _ _ _ _ Hr hf wd Hd) as (s' & h' & r & E & Hd' & HA).
  destruct (Hw _ _ _ _ E) as (v' & r' & E' & HW).
  exists v', h', r'. split; [exact E'|split; [exact Hd'|]].
  destruct r' as [[ev|]|err]; [now apply HW|now apply HW|exact I].
Qed.

Lemma run_expand_emit Q s h : Runs Q s h -> Runs Q (WSExpand (Some (WXEmitStream s))) h.
Proof. apply (run_pass (fun s => WSExpand (Some (WXEmitStream s))) (WSExpand None)); [reflexivity|over]. Qed.
Lemma run_expand Q s h : Runs Q s h -> Runs Q (WSExpand (Some (WXStart s))) h.
Proof.
  intros Hr. apply (run_start_sk Q s); [exact Hr|]. intros H H' s' r E.
  destruct r as [[[]|]|err]; wraps E; cbn [Next]; try exact I; intros h' HN.
  - now apply run_expand_emit.
  - apply (run_emit _ _ (WSExpand None) (ClosingTag tag)); [over|].
    apply run_over; [over|]. eapply run_post; eauto.
  - apply run_over; [over|]. eapply run_post; eauto.
Qed.

Lemma run_attr Q s c h : Runs Q s h -> Runs Q (WSAttr (Some (WAStart s c))) h.
Proof.
  intros Hr. apply (run_start_sk Q s); [exact Hr|]. intros H H' s' r E.
  destruct r as [[[]|]|err]; wraps E; cbn [Next]; try exact I; intros h' HN.
  - apply (run_pass (fun s => WSAttr (Some (WAEmit s))) (WSAttr None)); [reflexivity|over|exact HN].
  - apply run_over; [over|]. eapply run_post; eauto.
  - apply run_over; [over|]. eapply run_post; eauto.
Qed.

Lemma run_until Q tag s level h : Runs Q s h ->
  Runs Q (WSSingle (Some (WSEUntilClose tag s level))) h.
Proof.
  apply (run_wrap Q Q (fun s v => exists level, v = WSSingle (Some (WSEUntilClose tag s level)))
           (fun _ => False)); eauto.
  - intros. now apply post_intro.
  - contradiction.
  - intros s0 v H H' s' r [l0 ->] [n Hn]. destruct r as [[ev|]|err].
    + destruct (is_opening_tag_for ev tag) eqn:Eo;
        [|destruct (is_closing_tag_for ev tag) eqn:Ec; [destruct l0|]];
        (eexists _, _; split;
         [apply ne_intro; exists n; intros m Hm; cbn [wne_body]; unfold won_ok;
          rewrite Hn by auto; cbn [wbind]; rewrite Eo; try rewrite Ec; reflexivity|]);
        cbn [Wrapped]; eauto. right. over.
    + eexists _, _. split; [apply ne_intro; exists n; intros m Hm; cbn [wne_body]; unfold won_ok;
          rewrite Hn by auto; reflexivity|]. cbn [Wrapped]. split; [over|discriminate].
    + eexists _, _. split; [apply ne_intro; exists n; intros m Hm; cbn [wne_body]; unfold won_ok;
          rewrite Hn by auto; reflexivity|]. exact I.
Qed.
Lemma run_single Q ev s h : Runs Q s h -> Runs Q (WSSingle (Some (WSEStart ev s))) h.
Proof.
  intros Hr. assert (Runs Q (WSSingle None) h) as Hn.
  { apply run_over; [over|]. eapply run_post; eauto. }
  destruct ev;
    try (eapply run_fail; [over|eapply run_post; eauto]);
    (eapply run_emit; [over|]); auto using run_until.
Qed.

(** ** Shared sources *)

Definition Is (s : strm) (s' : strm) (_ : heap) : Prop := s' = s.

Lemma run_shared Q l c h : h !! l = None -> Runs Q c h ->
  Run Q (Is (WSShared l)) (WSShared l) (<[l := WCell c]> h).
Proof.
  assert (forall c h, h !! l = None -> Post Q h -> Post Q (<[l := WCell c]> h)) as Hp.
  { intros c0 h0 Hl. apply post_mono. now apply insert_subseteq. }
  assert (forall c h, h !! l = None -> Dead Q Any c h ->
            Dead Q (Is (WSShared l)) (WSShared l) (<[l := WCell c]> h)) as HDX.
  { intros c0 h0 Hl HD.
    exists (fun v H => v = WSShared l /\
              exists c h, H = <[l := WCell c]> h /\ h !! l = None /\ Dead Q Any c h).
    split; [eauto 10|]. intros v H0 (-> & c1 & h1 & -> & Hl1 & H1).
    split; [apply Hp; [auto|eapply dead_post; eauto]|split; [reflexivity|]].
    eapply stepF_mono; [|apply (shared_step _ _ _ _ Hl1 (dead_step _ _ _ _ H1))].
    intros s' h' r (-> & s2 & h2 & -> & Hl2 & -> & H2). eauto 10. }
  intros Hl Hr. revert c h Hr Hl.
  apply (run_ind Q Any (fun c h => h !! l = None ->
           Run Q (Is (WSShared l)) (WSShared l) (<[l := WCell c]> h))).
  - intros. now apply Run_dead, HDX.
  - intros c h HQ _ Hs Hl. apply Run_step; [now apply Hp|reflexivity|].
    eapply stepF_mono; [|apply (shared_step _ _ _ _ Hl Hs)].
    intros s' h' r (-> & s2 & h2 & -> & Hl2 & HA).
    destruct r as [[ev|]|err]; cbn [Next] in *; [now apply HA|now apply HDX|exact I].
Qed.

(** ** Building *)

(** The function [bld] turns streams that stop into streams that stop. *)
Definition BuildsR (bld : heap * W -> strm -> wout W strm) : Prop :=
  forall Q s h, Runs Q s h -> forall hf wd, hf ##ₘ h ->
  exists wd' h' s', bld (hf ∪ h, wd) s = WDone (hf ∪ h', wd') s' /\ hf ##ₘ h' /\ Runs Q s' h'.

Lemma buildsR_pure (C : strm -> strm) :
  (forall Q s h, Runs Q s h -> Runs Q (C s) h) -> BuildsR (fun h s => WDone h (C s)).
Proof. intros HC Q s h Hr hf wd Hd. exists wd, h, (C s). auto. Qed.

(** ** Selections *)

Lemma run_forget Q P s h : Run Q P s h -> Runs Q s h.
Proof.
  assert (forall s h, Dead Q P s h -> Dead Q Any s h) as HDX.
  { intros s0 h0 HD. exists (Dead Q P). split; [exact HD|]. intros s1 h1 H1.
    split; [eapply dead_post; eauto|split; [exact I|now apply dead_step]]. }
  revert s h. apply run_ind.
  - intros. now apply Run_dead, HDX.
  - intros s h HQ _ Hs. apply Run_step; [exact HQ|exact I|].
    eapply stepF_mono; [|exact Hs]. intros s' h' r HA.
    destruct r as [[ev|]|err]; cbn [Next] in *; [apply HA|now apply HDX|exact I].
Qed.

Section WSelect.
Variables (l : loc) (m : selector) (b : builder W) (direct : bool).
Hypothesis Hb : forall k, BuildsR (run_builder (b k)).
Let scanning (level calls : nat) : strm := WSSelect l m b calls direct (Some (WSelScanning level)).

Lemma scan_step Q h level calls X D :
  Post Q h ->
  StepF SK h (WSShared l) (Next X D) ->
  (forall s h, D s h -> Post Q h) ->
  (forall s h, X s h -> s = WSShared l /\
     (forall level calls, Runs Q (scanning level calls) h) /\
     exists Qin, Runs Qin (WSShared l) h /\
       (forall h, Qin h -> forall level calls, Runs Q (scanning level calls) h)) ->
  Runs Q (scanning level calls) h.
Proof.
  intros HQ Hs HD HX. apply Run_step; [exact HQ|exact I|]. intros hf wd Hd.
  destruct (Hs hf wd Hd) as (s' & h' & r & [n Hn] & Hd' & HA).
  destruct r as [[ev|]|err]; cbn [Next] in HA.
  - destruct (HX _ _ HA) as (-> & Hscan & Qin & Hin & HQin).
    destruct (include direct level && matches m ev) eqn:Ei.
    + destruct (Hb calls Qin (WSSingle (Some (WSEStart ev (WSShared l)))) h' (run_single _ _ _ _ Hin) hf (fst n) Hd')
        as (wd2 & h2 & new & E & Hd2 & Hnew).
      exists (WSSelect l m b (S calls) direct (Some (WSelActive level new))), h2, (inl (Some Noop)).
      split; [|split; [exact Hd2|]].
      * apply ne_intro. exists (wd2, snd n). cbn [fst snd]. intros k Hk. cbn [wne_body scanning]. unfold won_ok.
        rewrite Hn by auto. cbn [wbind]. rewrite Ei, E. reflexivity.
      * cbn [Next]. revert Hnew.
        apply (run_wrap Qin Q (fun s v => v = WSSelect l m b (S calls) direct (Some (WSelActive level s)))
                 (fun v => v = scanning level (S calls))); auto.
        -- intros h3 H3. eapply run_post. apply (HQin _ H3 0 0).
        -- intros v h3 -> (hq & Hsub & H3). eapply run_mono; [|exact Hsub]. now apply HQin.
        -- intros s0 v H H' s' r -> [k Hk].
           destruct r as [[ev'|]|err']; (eexists _, _; split;
             [apply ne_intro; exists k; intros ? ?; cbn [wne_body]; unfold won_ok;
              rewrite Hk by auto; reflexivity|]); cbn [Wrapped]; auto.
    + destruct (adjust level ev) as [level'|err] eqn:Ea.
      * exists (scanning level' calls), h', (inl (Some ev)). split; [|split; [exact Hd'|apply Hscan]].
        apply ne_intro. exists n. intros k Hk. cbn [wne_body scanning]. unfold won_ok.
        rewrite Hn by auto. cbn [wbind]. rewrite Ei, Ea. reflexivity.
      * exists (WSSelect l m b calls direct None), h', (inr err).
        split; [|split; [exact Hd'|exact I]].
        apply ne_intro. exists n. intros k Hk. cbn [wne_body scanning]. unfold won_ok.
        rewrite Hn by auto. cbn [wbind]. rewrite Ei, Ea. reflexivity.
  - exists (WSSelect l m b calls direct None), h', (inl None). split; [|split; [exact Hd'|]].
    + apply ne_intro. exists n. intros k Hk. cbn [wne_body scanning]. unfold won_ok.
      rewrite Hn by auto. reflexivity.
    + apply over_dead; [over|]. eauto.
  - exists (WSSelect l m b calls direct None), h', (inr err). split; [|split; [exact Hd'|exact I]].
    apply ne_intro. exists n. intros k Hk. cbn [wne_body scanning]. unfold won_ok.
    rewrite Hn by auto. reflexivity.
Qed.

Lemma run_select Q h : Run Q (Is (WSShared l)) (WSShared l) h -> Runs Q (scanning 0 0) h.
Proof.
  intros Hr.
  apply (run_strengthen Q (Is (WSShared l)) (fun _ h => forall level calls, Runs Q (scanning level calls) h))
    in Hr.
  - apply run_pred in Hr. now destruct Hr as [_ Hr].
  - intros s h0 HD level calls. assert (s = WSShared l) as -> by exact (dead_pred _ _ _ _ HD).
    apply (scan_step Q h0 level calls (fun _ _ => False) (Dead Q (Is (WSShared l)))).
    + eapply dead_post; eauto.
    + eapply stepF_mono; [|apply dead_sk; exact HD]. intros s' h' r [-> H']. exact H'.
    + intros. eapply dead_post; eauto.
    + contradiction.
  - clear h Hr. intros s h HQ -> Hs level calls. eapply (scan_step Q h level calls); [exact HQ|exact Hs| |].
    + intros. eapply dead_post; eauto.
    + intros s' h' Hr. pose proof (run_pred _ _ _ _ Hr) as [-> Hscan].
      split; [reflexivity|split; [exact Hscan|]]. eexists. split.
      * refine (run_self Q _ l h' _ Hr). intros s1 h1 [H1 _]. exact H1.
      * intros h1 H1. apply run_pred in H1. apply H1.
Qed.
End WSelect.

Lemma buildsR_select m b direct : (forall k, BuildsR (run_builder (b k))) ->
  BuildsR (fun h s => let '(h, s) := wselect_new h s m b direct in WDone h s).
Proof.
  intros Hb Q s h Hr hf wd Hd. unfold wselect_new. cbv zeta beta.
  pose proof (fresh_loc_none (hf ∪ h)) as Hfresh.
  apply lookup_union_None in Hfresh as [Hfl Hl]. set (l := wfresh_loc (hf ∪ h)) in *.
  cbn [fst]. fold l. rewrite insert_union_r by auto. eexists _, _, _. split; [reflexivity|].
  split; [apply map_disjoint_insert_r; auto|].
  apply run_select; [exact Hb|]. now apply run_shared.
Qed.

Section WSelectOnce.
Variables (l : loc) (m : selector) (p : once W) (direct : bool).
Hypothesis Hp : BuildsR (run_builder p).
Let scanning (level : nat) : strm := WSSelectOnce l (Some (WSelOScanning m p direct level)).

Lemma run_passthrough Q h : Runs Q (WSShared l) h -> 
  Run Q (Is (WSShared l)) (WSShared l) h -> Runs Q (WSSelectOnce l (Some WSelOPassthrough)) h.
Proof.
  intros _. revert h.
  assert (forall s h, Run Q (Is (WSShared l)) s h -> Runs Q (WSSelectOnce l (Some WSelOPassthrough)) h)
    as G; [|eauto].
  assert (forall H H' s' r, Ev (fun m => wne (wrun m) H (WSShared l)) H' (s', r) ->
    Ev (fun m => wne (wrun m) H (WSSelectOnce l (Some WSelOPassthrough))) H'
       (match r with inl (Some _) => WSSelectOnce l (Some WSelOPassthrough) | _ => WSSelectOnce l None end, r))
    as HE.
  { intros H H' s' r [n Hn]. apply ne_intro. exists n. intros k Hk. cbn [wne_body].
    unfold wpassthrough, won_ok. rewrite Hn by auto. now destruct r as [[]|]. }
  apply run_ind.
  - intros s h HD. assert (s = WSShared l) as -> by exact (dead_pred _ _ _ _ HD).
    apply Run_step; [eapply dead_post; eauto|exact I|]. intros hf wd Hd.
    destruct (dead_step _ _ _ _ HD hf wd Hd) as (s' & h' & r & E & Hd' & -> & H').
    eexists _, _, _. split; [apply (HE _ _ _ _ E)|split; [exact Hd'|]].
    apply over_dead; [over|eapply dead_post; eauto].
  - intros s h HQ -> Hs. apply Run_step; [exact HQ|exact I|]. intros hf wd Hd.
    destruct (Hs hf wd Hd) as (s' & h' & r & E & Hd' & HA).
    eexists _, _, _. split; [apply (HE _ _ _ _ E)|split; [exact Hd'|]].
    destruct r as [[ev|]|err]; cbn [Next] in *; [apply HA| |exact I].
    apply over_dead; [over|eapply dead_post; eauto].
Qed.

Lemma run_select_once Q h : Run Q (Is (WSShared l)) (WSShared l) h -> Runs Q (scanning 0) h.
Proof.
  intros Hr.
  assert (forall s h, Run Q (Is (WSShared l)) s h -> forall level, Runs Q (scanning level) h) as G;
    [|eapply G; eauto].
  clear h Hr.
  assert (forall h level D, Post Q h -> 
    StepF SK h (WSShared l) (Next (fun s h => Run Q (Is (WSShared l)) s h /\
      forall level, Runs Q (scanning level) h) D) ->
    (forall s h, D s h -> Post Q h) -> Runs Q (scanning level) h) as Hscan.
  { intros h level D HQ Hs HD. apply Run_step; [exact HQ|exact I|]. intros hf wd Hd.
    destruct (Hs hf wd Hd) as (s' & h' & r & [n Hn] & Hd' & HA).
    destruct r as [[ev|]|err]; cbn [Next] in HA.
    - destruct HA as [Hr Hscan]. pose proof (run_pred _ _ _ _ Hr) as Hp'. unfold Is in Hp'. subst s'.
      destruct (include direct level && matches m ev) eqn:Ei.
      + set (Qin := Run Q (Is (WSShared l)) (WSShared l)).
        assert (Runs Qin (WSShared l) h') as Hin by (apply run_self; auto).
        destruct (Hp Qin (WSSingle (Some (WSEStart ev (WSShared l)))) h' (run_single _ _ _ _ Hin) hf (fst n) Hd')
          as (wd2 & h2 & new & E & Hd2 & Hnew).
        exists (WSSelectOnce l (Some (WSelOActive new))), h2, (inl (Some Noop)).
        split; [|split; [exact Hd2|]].
        * apply ne_intro. exists (wd2, snd n). cbn [fst snd]. intros k Hk. cbn [wne_body scanning]. unfold won_ok.
          rewrite Hn by auto. cbn [wbind]. rewrite Ei, E. reflexivity.
        * cbn [Next]. revert Hnew.
          apply (run_wrap Qin Q (fun s v => v = WSSelectOnce l (Some (WSelOActive s)))
                   (fun v => v = WSSelectOnce l (Some WSelOPassthrough))); auto.
          -- intros h3 H3. eapply run_post; eauto.
          -- intros v h3 -> (hq & Hsub & H3). eapply run_mono; [|exact Hsub].
             apply run_passthrough; [eapply run_forget; eauto|exact H3].
          -- intros s0 v H H' s' r -> [k Hk].
             destruct r as [[ev'|]|err']; (eexists _, _; split;
               [apply ne_intro; exists k; intros ? ?; cbn [wne_body]; unfold won_ok;
                rewrite Hk by auto; reflexivity|]); cbn [Wrapped]; auto.
      + destruct (adjust level ev) as [level'|err] eqn:Ea.
        * exists (scanning level'), h', (inl (Some ev)). split; [|split; [exact Hd'|apply Hscan]].
          apply ne_intro. exists n. intros k Hk. cbn [wne_body scanning]. unfold won_ok.
          rewrite Hn by auto. cbn [wbind]. rewrite Ei, Ea. reflexivity.
        * exists (WSSelectOnce l None), h', (inr err).
          split; [|split; [exact Hd'|exact I]].
          apply ne_intro. exists n. intros k Hk. cbn [wne_body scanning]. unfold won_ok.
          rewrite Hn by auto. cbn [wbind]. rewrite Ei, Ea. reflexivity.
    - exists (WSSelectOnce l None), h', (inl None). split; [|split; [exact Hd'|]].
      + apply ne_intro. exists n. intros k Hk. cbn [wne_body scanning]. unfold won_ok.
        rewrite Hn by auto. reflexivity.
      + apply over_dead; [over|]. eauto.
    - exists (WSSelectOnce l None), h', (inr err). split; [|split; [exact Hd'|exact I]].
      apply ne_intro. exists n. intros k Hk. cbn [wne_body scanning]. unfold won_ok.
      rewrite Hn by auto. reflexivity. }
  apply (run_ind_sk Q (Is (WSShared l)) (fun _ h => forall level, Runs Q (scanning level) h)).
  - intros s h HD level. assert (s = WSShared l) as -> by exact (dead_pred _ _ _ _ HD).
    apply (Hscan h level (Dead Q (Is (WSShared l)))).
    + eapply dead_post; eauto.
    + eapply stepF_mono; [|apply dead_sk; exact HD]. intros s' h' r [-> H']. exact H'.
    + intros. eapply dead_post; eauto.
  - intros s h HQ -> Hs level. apply (Hscan h level _ HQ Hs). intros. eapply dead_post; eauto.
Qed.
End WSelectOnce.

Lemma buildsR_select_once m p direct : BuildsR (run_builder p) ->
  BuildsR (fun h s => let '(h, s) := wselect_once_new h s m p direct in WDone h s).
Proof.
  intros Hb Q s h Hr hf wd Hd. unfold wselect_once_new. cbv zeta beta.
  pose proof (fresh_loc_none (hf ∪ h)) as Hfresh.
  apply lookup_union_None in Hfresh as [Hfl Hl]. set (l := wfresh_loc (hf ∪ h)) in *.
  cbn [fst]. fold l. rewrite insert_union_r by auto. eexists _, _, _. split; [reflexivity|].
  split; [apply map_disjoint_insert_r; auto|].
  apply run_select_once; [exact Hb|]. now apply run_shared.
Qed.

(** ** Contents *)

(** The wcell [l] has a [Peek] whose source stops. *)
Definition Peeks (l : loc) (Q : heap -> Prop) (h : heap) : Prop :=
  exists s buf h1, h = <[l := WCell (WSPeek s buf)]> h1 /\ h1 !! l = None /\ Runs Q s h1.
Lemma peeks_intro l Q s buf h : h !! l = None -> Runs Q s h ->
  Peeks l Q (<[l := WCell (WSPeek s buf)]> h).
Proof. exists s, buf, h. auto. Qed.
Lemma peeks_post l Q h : Peeks l Q h -> Post Q h.
Proof.
  intros (s & buf & h1 & -> & Hl & Hr). eapply post_mono; [|eapply run_post; exact Hr].
  now apply insert_subseteq.
Qed.

Lemma run_current Q tag l s h : Runs Q s h -> h !! l = None -> forall level,
  Runs (Peeks l Q) (WSCurrentContent (Some (tag, l, level))) (<[l := WCell (WSPeek s None)]> h).
Proof.
  assert (forall s h level D, Runs Q s h ->
    StepF SK h s (Next (fun s h => Runs Q s h /\ (h !! l = None -> forall level,
      Runs (Peeks l Q) (WSCurrentContent (Some (tag, l, level))) (<[l := WCell (WSPeek s None)]> h))) D) ->
    (forall s h, D s h -> Runs Q s h) -> h !! l = None ->
    Runs (Peeks l Q) (WSCurrentContent (Some (tag, l, level))) (<[l := WCell (WSPeek s None)]> h)) as G.
  { intros s0 h0 level D Hr0 Hs HD Hl.
    apply Run_step; [apply post_intro; now apply peeks_intro|exact I|].
    (* one event taken from the wcell *)
    assert (StepF NE h0 (WSPeek s0 None) (fun s' h' r => exists s1, s' = WSPeek s1 None /\
      Next (fun s h => Runs Q s h /\ (h !! l = None -> forall level,
      Runs (Peeks l Q) (WSCurrentContent (Some (tag, l, level))) (<[l := WCell (WSPeek s None)]> h))) D s1 h' r))
      as Hne.
    { intros hf wd Hd. destruct (Hs hf wd Hd) as (s' & h' & r & [n Hn] & Hd' & HA).
      exists (WSPeek s' None), h', r. split; [|eauto].
      apply ne_intro. exists n. intros k Hk. cbn [wne_body]. unfold won_ok. rewrite Hn by auto.
      now destruct r as [[]|]. }
    assert (StepF (fun m => wpeek (wrun m)) h0 (WSPeek s0 None) (fun s' h' r => exists s1,
      s' = WSPeek s1 (match r with inl r => r | inr _ => None end) /\
      Next (fun s h => Runs Q s h /\ (h !! l = None -> forall level,
      Runs (Peeks l Q) (WSCurrentContent (Some (tag, l, level))) (<[l := WCell (WSPeek s None)]> h))) D s1 h' r))
      as Hpk.
    { intros hf wd Hd. destruct (Hs hf wd Hd) as (s' & h' & r & [n Hn] & Hd' & HA).
      exists (WSPeek s' (match r with inl r => r | inr _ => None end)), h', r. split; [|eauto].
      exists n. intros k Hk. unfold wpeek, won_ok. rewrite Hn by auto.
      now destruct r as [[]|]. }
    intros hf wd Hd. destruct level as [|level].
    - destruct (with_cell_step _ _ _ _ _ Hl Hpk hf wd Hd)
        as (s' & h' & r & [n Hn] & Hd' & -> & c1 & h1 & -> & Hl1 & s1 & -> & HA).
      destruct r as [[ev|]|err]; cbn [Next] in HA.
      + destruct HA as [Hr1 HA]. destruct (is_closing_tag_for ev tag) eqn:Ec.
        * exists (WSCurrentContent None), (<[l := WCell (WSPeek s1 (Some ev))]> h1), (inl None).
          split; [|split; [exact Hd'|]].
          -- apply ne_intro. exists n. intros k Hk. cbn [wne_body Nat.eqb negb]. unfold won_ok.
             rewrite Hn by auto. cbn [wbind]. rewrite Ec. reflexivity.
          -- apply over_dead; [over|]. apply post_intro. now apply peeks_intro.
        * assert (StepF NE h1 (WSPeek s1 (Some ev)) (fun s' h' r =>
            s' = WSPeek s1 None /\ h' = h1 /\ r = inl (Some ev))) as Hne1.
          { intros hf1 wd1 Hd1. exists (WSPeek s1 None), h1, (inl (Some ev)). split; [|auto]. ne_now. }
          destruct (shared_step _ _ _ _ Hl1 Hne1 hf (fst n) Hd')
            as (s' & h' & r & [n2 Hn2] & Hd2 & -> & c2 & h2 & -> & Hl2 & -> & -> & ->).
          destruct (adjust 0 ev) as [level'|err] eqn:Ea.
          -- exists (WSCurrentContent (Some (tag, l, level'))), (<[l := WCell (WSPeek s1 None)]> h1),
               (inl (Some ev)). split; [|split; [exact Hd2|now apply HA]].
             apply ne_intro. exists (fst n2, max (snd n) (snd n2)). intros k Hk. cbn in Hk. cbn [wne_body Nat.eqb negb]. unfold won_ok.
             rewrite Hn by lia. cbn [wbind]. rewrite Ec, Hn2 by lia. cbn [wbind]. rewrite Ea. reflexivity.
          -- exists (WSCurrentContent None), (<[l := WCell (WSPeek s1 None)]> h1),
               (inr (missing_close tag)). split; [|split; [exact Hd2|exact I]].
             apply ne_intro. exists (fst n2, max (snd n) (snd n2)). intros k Hk. cbn in Hk. cbn [wne_body Nat.eqb negb]. unfold won_ok.
             rewrite Hn by lia. cbn [wbind]. rewrite Ec, Hn2 by lia. cbn [wbind]. rewrite Ea. reflexivity.
      + eexists _, _, (inr (missing_close tag)). split; [|split; [exact Hd'|exact I]].
        apply ne_intro. exists n. intros k Hk. cbn [wne_body Nat.eqb negb]. unfold won_ok.
        rewrite Hn by auto. reflexivity.
      + eexists _, _, (inr err). split; [|split; [exact Hd'|exact I]].
        apply ne_intro. exists n. intros k Hk. cbn [wne_body Nat.eqb negb]. unfold won_ok.
        rewrite Hn by auto. reflexivity.
    - destruct (shared_step _ _ _ _ Hl Hne hf wd Hd)
        as (s' & h' & r & [n Hn] & Hd' & -> & c1 & h1 & -> & Hl1 & s1 & -> & HA).
      destruct r as [[ev|]|err]; cbn [Next] in HA.
      + destruct HA as [Hr1 HA]. destruct (adjust (S level) ev) as [level'|err] eqn:Ea.
        * exists (WSCurrentContent (Some (tag, l, level'))), (<[l := WCell (WSPeek s1 None)]> h1),
            (inl (Some ev)). split; [|split; [exact Hd'|now apply HA]].
          apply ne_intro. exists n. intros k Hk. cbn [wne_body Nat.eqb negb]. unfold won_ok.
          rewrite Hn by auto. cbn [wbind]. rewrite Ea. reflexivity.
        * eexists _, _, (inr (missing_close tag)). split; [|split; [exact Hd'|exact I]].
          apply ne_intro. exists n. intros k Hk. cbn [wne_body Nat.eqb negb]. unfold won_ok.
          rewrite Hn by auto. cbn [wbind]. rewrite Ea. reflexivity.
      + eexists _, _, (inr (missing_close tag)). split; [|split; [exact Hd'|exact I]].
        apply ne_intro. exists n. intros k Hk. cbn [wne_body Nat.eqb negb]. unfold won_ok.
        rewrite Hn by auto. reflexivity.
      + eexists _, _, (inr err). split; [|split; [exact Hd'|exact I]].
        apply ne_intro. exists n. intros k Hk. cbn [wne_body Nat.eqb negb]. unfold won_ok.
        rewrite Hn by auto. reflexivity. }
  intros Hr. apply (run_ind_both Q Any (fun s h => h !! l = None -> forall level,
    Runs (Peeks l Q) (WSCurrentContent (Some (tag, l, level))) (<[l := WCell (WSPeek s None)]> h))) in Hr;
    [exact (proj1 Hr)| |].
  - clear s h Hr. intros s h HD Hl level. apply (G s h level (Dead Q Any)); auto.
    + now apply Run_dead.
    + eapply stepF_mono; [|apply dead_sk; exact HD]. intros s' h' r [-> H']. exact H'.
    + intros. now apply Run_dead.
  - clear s h Hr. intros s h HQ _ Hne Hsk Hl level. apply (G s h level (Dead Q Any)); auto.
    + apply Run_step; [exact HQ|exact I|]. eapply stepF_mono; [|exact Hne]. intros s' h' r HA.
      destruct r as [[ev|]|err]; cbn [Next] in *; [apply HA|exact HA|exact I].
    + intros. now apply Run_dead.
Qed.

Lemma run_close Q l tag h : Post (Peeks l Q) h -> Runs Q (WSSelectContent (Some (WSCClose l tag))) h.
Proof.
  intros (hq & Hsub & s & buf & h1 & -> & Hl & Hr). eapply run_mono; [|exact Hsub]. clear h Hsub.
  apply (run_peek Q s buf) in Hr. apply (run_shared Q l _ _ Hl), run_forget in Hr.
  apply (run_start_sk Q (WSShared l)); [exact Hr|]. intros H H' s' r E.
  destruct r as [[[]|]|err]; try (wraps E; exact I).
  destruct (ident_eqb tag0 tag) eqn:Et.
  - exists (WSSelectContent None), (inl (Some (ClosingTag tag0))). split.
    + destruct E as [n Hn]. apply ne_intro. exists n. intros k Hk. cbn [wne_body]. unfold won_ok.
      rewrite Hn by auto. cbn [wbind]. rewrite Et. reflexivity.
    + cbn [Next]. intros h' HN. apply run_over; [over|]. eapply run_post; eauto.
  - exists (WSSelectContent None), (inr (unexpected_close tag0)). split; [|exact I].
    destruct E as [n Hn]. apply ne_intro. exists n. intros k Hk. cbn [wne_body]. unfold won_ok.
    rewrite Hn by auto. cbn [wbind]. rewrite Et. reflexivity.
Qed.

Lemma run_contents Q s cb h : BuildsR (wbuild_content cb) -> Runs Q s h ->
  Runs Q (wselect_content_new s cb) h.
Proof.
  intros Hb Hr. apply run_expand in Hr. apply Run_step; [eapply run_post; eauto|exact I|].
  intros hf wd Hd. destruct (run_sk _ _ _ _ Hr hf wd Hd) as (x & h' & r & [n Hn] & Hd' & HA).
  assert (forall v r', (forall k, snd n <= k -> wne_body (wrun k) (hf ∪ h, wd) (wselect_content_new s cb)
                                           = WDone (hf ∪ h', fst n) (v, r')) ->
            Next (Runs Q) (Dead Q Any) v h' r' ->
            exists s' h' r, Ev (fun m => wne (wrun m) (hf ∪ h, wd) (wselect_content_new s cb)) (hf ∪ h') (s', r) /\
              hf ##ₘ h' /\ Next (Runs Q) (Dead Q Any) s' h' r) as Hgo.
  { intros v r' E HN. exists v, h', r'. split; [|auto]. apply ne_intro. exists n. exact E. }
  assert (forall r, match r with inl (Some (OpeningTag _ _)) => False | _ => True end ->
    (forall m, snd n <= m -> wsk (wrun m) (hf ∪ h, wd) (WSExpand (Some (WXStart s))) = WDone (hf ∪ h', fst n) (x, r)) ->
    (match r with inl (Some _) => Post Q h' | _ => True end) ->
    exists s' h' r, Ev (fun m => wne (wrun m) (hf ∪ h, wd) (wselect_content_new s cb)) (hf ∪ h') (s', r) /\
              hf ##ₘ h' /\ Next (Runs Q) (Dead Q Any) s' h' r) as Hother.
  { intros r0 Hr0 Hn0 HQ. destruct r0 as [[[]|]|err]; try contradiction;
      (eapply Hgo; [intros k Hk; unfold wselect_content_new; cbn [wne_body]; unfold won_ok;
                    rewrite Hn0 by auto; reflexivity|]); try exact I.
    apply run_over; [over|exact HQ]. }
  destruct r as [[ev|]|err]; cbn [Next] in HA;
    [|exact (Hother (inl None) I Hn I)|exact (Hother (inr err) I Hn I)].
  pose proof (run_post _ _ _ _ HA) as HQ.
  destruct ev; try (eapply Hother; [|exact Hn|exact HQ]; exact I).
  pose proof (fresh_loc_none (hf ∪ h')) as Hfresh.
  apply lookup_union_None in Hfresh as [Hfl Hl].
  remember (wfresh_loc (hf ∪ h')) as l eqn:El.
  destruct (Hb (Peeks l Q) (WSCurrentContent (Some (tag, l, 0))) (<[l := WCell (WSPeek x None)]> h')
              (run_current Q tag l x h' HA Hl 0) hf (fst n)) as (wd2 & h2 & s2 & E2 & Hd2 & Hs2).
  { apply map_disjoint_insert_r. auto. }
  exists (WSSelectContent (Some (WSCContent l s2 tag))), h2, (inl (Some (OpeningTag tag attrs))).
  split; [|split; [exact Hd2|]].
  - apply ne_intro. exists (wd2, snd n). intros k Hk. unfold wselect_content_new. cbn [wne_body]. unfold won_ok.
    rewrite Hn by auto. cbn [wbind fst snd]. cbv zeta. rewrite <- El, insert_union_r by auto. rewrite E2. reflexivity.
  - cbn [Next]. revert Hs2.
    apply (run_wrap (Peeks l Q) Q (fun s v => v = WSSelectContent (Some (WSCContent l s tag)))
             (fun v => v = WSSelectContent (Some (WSCClose l tag)))); auto.
    + intros. now apply peeks_post with (l := l).
    + intros v h3 -> H3. now apply run_close.
    + intros s0 v H H' s' r -> [k Hk].
      destruct r as [[ev'|]|err']; (eexists _, _; split;
        [apply ne_intro; exists k; intros ? ?; cbn [wne_body]; unfold won_ok;
         rewrite Hk by auto; reflexivity|]); cbn [Wrapped]; auto.
Qed.

(** ** Collecting *)

Lemma run_apply_emit Q evs i h : Post Q h -> Runs Q (WSTemplateApply (Some (WTAEmit evs i))) h.
Proof.
  intros HQ.
  apply (run_wrap Q Q (fun s v => exists i, s = WSTemplate evs i /\ v = WSTemplateApply (Some (WTAEmit evs i)))
           (fun _ => False) (WSTemplate evs i)); [intros; now apply post_intro|contradiction| |eauto|].
  - intros s v H H' s' r (j & -> & ->) E.
    assert (Ev (fun m => wne (wrun m) H (WSTemplate evs j)) (fst H)
              (match nth_error evs j with
               | Some ev => (WSTemplate evs (S j), inl (Some ev))
               | None => (WSTemplate evs j, inl None)
               end)) as E0.
    { apply ne_intro. destruct H as [H wd]. exists (wd, 0). intros m _. cbn [wne_body]. now destruct (nth_error evs j). }
    destruct (ev_det _ _ _ _ _ E E0) as [-> E1]. clear E0.
    destruct (nth_error evs j) as [ev|]; injection E1 as -> ->; wraps E; cbn [Wrapped]; eauto.
    split; [over|discriminate].
  - now apply run_template.
Qed.

Lemma run_as_template Q s f h : Runs Q s h -> Runs Q (WSTemplateApply (Some (WTACollect s f))) h.
Proof.
  intros Hr. apply Run_step; [eapply run_post; eauto|exact I|]. intros hf wd Hd.
  destruct (run_co _ _ _ _ Hr hf wd [] Hd) as (h' & r & [n Hn] & Hd' & HQ).
  destruct r as [evs|err]; [destruct (f (fst n) evs) as [wd2 [evs'|err]] eqn:Ef|].
  - exists (WSTemplateApply (Some (WTAEmit evs' 0))), h', (inl (Some Noop)).
    split; [|split; [exact Hd'|apply run_apply_emit; eauto]].
    apply ne_intro. exists (wd2, snd n). intros k Hk. cbn [wne_body]. rewrite Hn by auto. cbn [wbind fst snd].
    rewrite Ef. reflexivity.
  - exists (WSTemplateApply None), h', (inr err). split; [|split; [exact Hd'|exact I]].
    apply ne_intro. exists (wd2, snd n). intros k Hk. cbn [wne_body]. rewrite Hn by auto. cbn [wbind fst snd].
    rewrite Ef. reflexivity.
  - exists (WSTemplateApply None), h', (inr err). split; [|split; [exact Hd'|exact I]].
    apply ne_intro. exists n. intros k Hk. cbn [wne_body]. rewrite Hn by auto. reflexivity.
Qed.

(** An iterator that ends, with items that build streams that stop. *)
Inductive EndsR : iterator W -> Prop :=
| EndsR_next it :
    (forall w w' b, it 0 w = (w', Some b) -> BuildsR (run_builder b)) ->
    (forall w w' b, it 0 w = (w', Some b) -> EndsR (fun n => it (S n))) -> EndsR it.

Lemma run_repeat_emit Q evs i s h : (forall h, Post Q h -> Runs Q (WSRepeat (Some (WRNext evs i))) h) ->
  Runs Q s h -> Runs Q (WSRepeat (Some (WREmit evs s i))) h.
Proof.
  intros Hi.
  apply (run_wrap Q Q (fun s v => v = WSRepeat (Some (WREmit evs s i)))
           (fun v => v = WSRepeat (Some (WRNext evs i)))); auto.
  - intros. now apply post_intro.
  - intros v h3 -> H3. now apply Hi.
  - intros s0 v H H' s1 r -> [k Hk].
    destruct r as [[ev'|]|err']; (eexists _, _; split;
      [apply ne_intro; exists k; intros ? ?; cbn [wne_body]; unfold won_ok;
       rewrite Hk by auto; reflexivity|]); cbn [Wrapped]; auto.
Qed.
Lemma run_repeat_next Q evs it : EndsR it ->
  forall h, Post Q h -> Runs Q (WSRepeat (Some (WRNext evs (Items None it)))) h.
Proof.
  induction 1 as [it Hb _ IH]. intros h HQ.
  apply Run_step; [exact HQ|exact I|]. intros hf wd Hd.
  destruct (it 0 wd) as [wd2 [b|]] eqn:Ei.
  - destruct (Hb _ _ _ Ei Q _ h (run_template Q evs 0 h HQ) hf wd2 Hd) as (wd3 & h' & s' & E & Hd' & Hs').
    exists (WSRepeat (Some (WREmit evs s' (Items None (fun n => it (S n)))))), h', (inl (Some Noop)).
    split; [|split; [exact Hd'|]].
    + apply ne_intro. exists (wd3, 0). intros k _. cbn [wne_body next_item fst snd]. rewrite Ei. cbn [fst snd].
      rewrite E. reflexivity.
    + cbn [Next]. revert Hs'. apply run_repeat_emit. eapply IH; eauto.
  - exists (WSRepeat None), h, (inl None). split; [|split; [exact Hd|]].
    + apply ne_intro. exists (wd2, 0). intros k _. cbn [wne_body next_item fst snd]. rewrite Ei. reflexivity.
    + apply over_dead; [over|exact HQ].
Qed.
(** the items after the first one was taken in advance *)
Definition EndsI (i : items W) : Prop :=
  match i with
  | Items None it => EndsR it
  | Items (Some b) it => BuildsR (run_builder b) /\ EndsR it
  end.
Lemma run_repeat_items Q evs i : EndsI i ->
  forall h, Post Q h -> Runs Q (WSRepeat (Some (WRNext evs i))) h.
Proof.
  destruct i as [[b|] it]; cbn [EndsI]; [|apply run_repeat_next]. intros [Hb Hit] h HQ.
  apply Run_step; [exact HQ|exact I|]. intros hf wd Hd.
  destruct (Hb Q _ h (run_template Q evs 0 h HQ) hf wd Hd) as (wd3 & h' & s' & E & Hd' & Hs').
  exists (WSRepeat (Some (WREmit evs s' (Items None it)))), h', (inl (Some Noop)).
  split; [|split; [exact Hd'|]].
  - apply ne_intro. exists (wd3, 0). intros k _. cbn [wne_body next_item fst snd]. rewrite E. reflexivity.
  - cbn [Next]. revert Hs'. apply run_repeat_emit. now apply run_repeat_next.
Qed.

Lemma run_repeat Q s i h : EndsI i -> Runs Q s h -> Runs Q (WSRepeat (Some (WRCollect s i))) h.
Proof.
  intros Hb Hr. apply Run_step; [eapply run_post; eauto|exact I|]. intros hf wd Hd.
  destruct (run_co _ _ _ _ Hr hf wd [] Hd) as (h' & r & [n Hn] & Hd' & HQ).
  destruct r as [evs|err].
  - exists (WSRepeat (Some (WRNext evs i))), h', (inl (Some Noop)).
    split; [|split; [exact Hd'|apply run_repeat_items; eauto]].
    apply ne_intro. exists n. intros k Hk. cbn [wne_body]. rewrite Hn by auto. reflexivity.
  - exists (WSRepeat None), h', (inr err). split; [|split; [exact Hd'|exact I]].
    apply ne_intro. exists n. intros k Hk. cbn [wne_body]. rewrite Hn by auto. reflexivity.
Qed.

Lemma run_roe Q contents s it b h : EndsR it -> BuildsR (run_builder b) -> Runs Q s h ->
  Runs Q (WSRepeatOrElse (Some (WROEStart contents s it b))) h.
Proof.
  intros Hit Hp Hr. apply Run_step; [eapply run_post; eauto|exact I|]. intros hf wd Hd.
  destruct (it 0 wd) as [wd2 [b0|]] eqn:Ei.
  - set (i := Items (Some b0) (fun n => it (S n))).
    assert (EndsI i) as Hi by (inversion Hit; subst; split; eauto).
    exists (WSRepeatOrElse (Some (WROERepeat (if contents then wselect_content_new s (WCBRepeat i)
                        else WSRepeat (Some (WRCollect s i)))))), h, (inl (Some Noop)).
    split; [|split; [exact Hd|]].
    + apply ne_intro. exists (wd2, 0). intros k _. cbn [wne_body fst snd]. rewrite Ei. reflexivity.
    + cbn [Next].
      apply (run_pass (fun s => WSRepeatOrElse (Some (WROERepeat s))) (WSRepeatOrElse None)); [reflexivity|over|].
      destruct contents; [|now apply run_repeat].
      apply run_contents; [|exact Hr]. apply (buildsR_pure (fun s => WSRepeat (Some (WRCollect s i)))).
      intros. now apply run_repeat.
  - destruct (Hp Q s h Hr hf wd2 Hd) as (wd3 & h' & s' & E & Hd' & Hs').
    exists (WSRepeatOrElse (Some (WROEFallback s'))), h', (inl (Some Noop)).
    split; [|split; [exact Hd'|]].
    + apply ne_intro. exists (wd3, 0). intros k _. cbn [wne_body fst snd]. rewrite Ei. cbn [fst snd].
      rewrite E. reflexivity.
    + cbn [Next]. revert Hs'.
      apply (run_pass (fun s => WSRepeatOrElse (Some (WROEFallback s))) (WSRepeatOrElse None)); [reflexivity|over].
Qed.

(** ** All calls *)

Lemma buildsR_named name (c : ident -> option attr_cmd) : (forall i, exists a, c i = Some a) ->
  BuildsR (fun h s => wattr_new h s name c).
Proof.
  intros Hc. unfold wattr_new. destruct name as [name|err].
  - destruct (Hc name) as [a ->].
    apply (buildsR_pure (fun s => wfallible_new (inl (WSAttr (Some (WAStart s a)))))).
    intros. now apply run_fallible, run_attr.
  - apply (buildsR_pure (fun s => wfallible_new (inr (SEIdentifier err)))).
    intros. eapply run_failed, run_post; eauto.
Qed.
Lemma buildsR_error err : BuildsR (fun h s => WDone h (wfallible_new (inr err))).
Proof.
  apply (buildsR_pure (fun _ => wfallible_new (inr err))). intros. eapply run_failed, run_post; eauto.
Qed.
Lemma buildsR_fallible bld : BuildsR bld ->
  BuildsR (fun h s => wbind (bld h s) (fun h s => WDone h (wfallible_new (inl s)))).
Proof.
  intros Hb Q s h Hr hf wd Hd. destruct (Hb Q s h Hr hf wd Hd) as (wd' & h' & s' & -> & Hd' & Hs').
  exists wd', h', (wfallible_new (inl s')). split; [reflexivity|split; [exact Hd'|now apply run_fallible]].
Qed.

Lemma buildsR_pipe_of (p : pipeline) : (forall o, In o p -> BuildsR (wbuild_op o)) -> BuildsR (wbuild p).
Proof.
  induction p as [|o p IH]; intros Ho Q s h Hr hf wd Hd.
  - exists wd, h, s. auto.
  - destruct (Ho o (or_introl eq_refl) Q s h Hr hf wd Hd) as (wd' & h' & s' & E & Hd' & Hs').
    cbn [wbuild]. rewrite E. cbn [wbind]. apply IH; auto. intros o' Ho'. apply Ho. now right.
Qed.
Lemma buildsR_once (b : once W) : (forall w, BuildsR (wbuild (snd (b w)))) -> BuildsR (run_builder b).
Proof.
  intros Hb Q s h Hr hf wd Hd. unfold run_builder. cbn [fst snd]. specialize (Hb wd).
  destruct (b wd) as [wd' p]. cbn [snd] in Hb. exact (Hb Q s h Hr hf wd' Hd).
Qed.
Lemma ends_R (it : iterator W) : Ends it ->
  (forall k v v' b w, it k v = (v', Some b) -> BuildsR (wbuild (snd (b w)))) -> EndsR it.
Proof.
  induction 1 as [it _ IH]. intros Hb. constructor.
  - intros w w' b E. apply buildsR_once. intros v. eapply Hb; eauto.
  - intros w w' b E. eapply IH; eauto.
Qed.

Lemma buildsR_op (o : op) : (forall it, Asks o it -> Ends it) -> (forall f, Puts o f -> EndsEvents f) ->
  (forall q, Makes o q -> BuildsR (wbuild q)) -> BuildsR (wbuild_op o).
Proof.
  intros Hi Hl Hp. destruct o; cbn [Makes Asks Puts] in Hi, Hl, Hp;
    try (apply (buildsR_named name); intros i; eexists; reflexivity).
  - change (BuildsR (wbuild p)). now apply Hp.
  - now apply (buildsR_pure (fun s => s)).
  - now apply (buildsR_pure (fun s => s)).
  - intros Q s h Hr hf wd Hd. destruct (Hp p eq_refl Q s h Hr hf wd Hd) as (wd' & h' & s' & E & Hd' & Hs').
    exists wd', h', (WSApplyEither first s'). split; [|split; [exact Hd'|now apply run_either]].
    change (wbind (wbuild p (hf ∪ h, wd) s) (fun h s => WDone h (WSApplyEither first s))
            = WDone (hf ∪ h', wd') (WSApplyEither first s')). now rewrite E.
  - apply (buildsR_pure (fun s => WSTemplateApply (Some (WTACollect s f)))).
    intros. now apply run_as_template.
  - destruct sel as [m|err]; [|apply buildsR_error].
    assert (forall k, BuildsR (run_builder (b k))) as Hb by (intros k; apply buildsR_once; eauto).
    apply (buildsR_fallible _ (buildsR_select m b direct Hb)).
  - destruct sel as [m|err]; [|apply buildsR_error].
    apply (buildsR_fallible _ (buildsR_select_once m b direct (buildsR_once _ (fun w => Hp _ (ex_intro _ w eq_refl))))).
  - apply (buildsR_pure WSRemove). intros. now apply run_remove.
  - apply (buildsR_pure (fun s => wprepend_new s (wcontent_stream c))).
    intros. apply run_prepend; auto. intros. now apply run_content_stream.
  - apply (buildsR_pure (fun s => wappend_new s (wcontent_stream c))).
    intros. apply run_append; auto. intros. now apply run_content_stream.
  - apply (buildsR_pure (fun s => wreplace_new s (wcontent_stream c))).
    intros. apply run_prepend; auto using run_remove. intros. now apply run_content_stream.
  - assert (EndsR it) by (apply ends_R; [auto|intros; apply Hp; eauto 10]).
    apply (buildsR_pure (fun s => WSRepeat (Some (WRCollect s (plain it))))). intros. now apply run_repeat.
  - assert (EndsR it) by (apply ends_R; [auto|intros; apply Hp; eauto 10]).
    apply (buildsR_pure (fun s => WSRepeatOrElse (Some (WROEStart false s it b)))).
    intros. apply run_roe; auto. apply buildsR_once. eauto.
  - apply (buildsR_pure (fun s => wselect_content_new s (WCBUser b))).
    intros. apply run_contents; auto. apply buildsR_once. eauto.
  - destruct sel as [m|err]; [|apply buildsR_error].
    apply (buildsR_pure (fun s => wfallible_new (inl (wselect_content_new s (WCBSelect direct m b))))).
    intros. apply run_fallible, run_contents; auto. apply buildsR_select. intros k. apply buildsR_once. eauto.
  - destruct sel as [m|err]; [|apply buildsR_error].
    apply (buildsR_pure (fun s => wfallible_new (inl (wselect_content_new s (WCBSelectOnce direct m b))))).
    intros. apply run_fallible, run_contents; auto. apply buildsR_select_once. apply buildsR_once. eauto.
  - apply (buildsR_pure (fun s => wselect_content_new s WCBRemove)).
    intros. apply run_contents; auto. apply (buildsR_pure WSRemove). intros. now apply run_remove.
  - apply (buildsR_pure (fun s => wselect_content_new s (WCBPrepend (wcontent_stream c)))).
    intros. apply run_contents; auto. apply (buildsR_pure (fun s => wprepend_new s (wcontent_stream c))).
    intros. apply run_prepend; auto. intros. now apply run_content_stream.
  - apply (buildsR_pure (fun s => wselect_content_new s (WCBAppend (wcontent_stream c)))).
    intros. apply run_contents; auto. apply (buildsR_pure (fun s => wappend_new s (wcontent_stream c))).
    intros. apply run_append; auto. intros. now apply run_content_stream.
  - apply (buildsR_pure (fun s => wselect_content_new s (WCBReplace (wcontent_stream c)))).
    intros. apply run_contents; auto. apply (buildsR_pure (fun s => wreplace_new s (wcontent_stream c))).
    intros. apply run_prepend; auto using run_remove. intros. now apply run_content_stream.
  - assert (EndsR it) by (apply ends_R; [auto|intros; apply Hp; eauto 10]).
    apply (buildsR_pure (fun s => wselect_content_new s (WCBRepeat (plain it)))).
    intros. apply run_contents; auto. apply (buildsR_pure (fun s => WSRepeat (Some (WRCollect s (plain it))))).
    intros. now apply run_repeat.
  - assert (EndsR it) by (apply ends_R; [auto|intros; apply Hp; eauto 10]).
    apply (buildsR_pure (fun s => WSRepeatOrElse (Some (WROEStart true s it b)))).
    intros. apply run_roe; auto. apply buildsR_once. eauto.
  - apply (buildsR_pure (fun s => WSAttr (Some (WAStart s (ARemoveAttribute Trace.id_ident))))).
    intros. now apply run_attr.
Qed.
Lemma buildsR_pipe (p : pipeline) : Ending p -> BuildsR (wbuild p).
Proof.
  induction 1 as [p Ha Hl _ IH]. apply buildsR_pipe_of. intros o Ho. apply buildsR_op; eauto.
Qed.

Lemma ending_gives evs (b : once W) w : Ending (snd (b w)) -> exists r w', GivesIn evs b w r w'.
Proof.
  intros Hb. assert (Runs (fun _ => True) (WSTemplate evs 0) ∅) as Hr by (now apply run_template, post_intro).
  destruct (b w) as [w1 p] eqn:Eb. cbn [snd] in Hb.
  destruct (buildsR_pipe p Hb _ _ _ Hr ∅ w1) as (w2 & h & s & E & Hd & Hs).
  { apply map_disjoint_empty_l. }
  destruct (run_co _ _ _ _ Hs ∅ w2 [] Hd) as (h' & r & [n Hn] & _).
  exists r, (fst n), (snd n), (∅ ∪ h'). unfold wtransform, run_builder. cbn [fst snd]. rewrite Eb.
  rewrite map_empty_union in E. rewrite E. cbn [wbind]. now apply Hn.
Qed.
End Stops.
