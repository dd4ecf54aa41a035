(** Streams as lists of events: what it means that a stream, in a heap, produces a list
    of events and then ends or fails.  Other cells of the heap (the frame) are arbitrary
    and unchanged. *)
From Coq Require Import String ZArith.
From stdpp Require Import gmap.
From Verif Require Import Text Event Input Parse Selector Machine.
Local Open Scope nat_scope.

(** ** Allocation *)

Lemma fresh_loc_above (h : heap) l c : h !! l = Some c -> (l < fresh_loc h)%positive.
Proof.
  unfold fresh_loc. revert l c.
  apply (map_fold_ind (fun (m : positive) (h : heap) =>
           forall l c, h !! l = Some c -> (l < m)%positive)).
  - intros l c H. now rewrite lookup_empty in H.
  - intros i x m r Hi IH l c H. destruct (decide (i = l)) as [->|Hn].
    + lia.
    + rewrite lookup_insert_ne in H by auto. specialize (IH _ _ H). lia.
Qed.
Lemma fresh_loc_none (h : heap) : h !! fresh_loc h = None.
Proof.
  destruct (h !! fresh_loc h) as [c|] eqn:E; auto.
  apply fresh_loc_above in E. lia.
Qed.

(** ** Eventually: with enough fuel *)

Definition Ev {A} (f : nat -> out A) (h : heap) (a : A) : Prop :=
  exists n, forall m, n <= m -> f m = Done h a.

Notation NE := (fun m => ne (run m)).
Notation SK := (fun m => sk (run m)).
Notation DR := (fun m => dr (run m)).
Notation PK := (fun m => peek (run m)).

Lemma ev_S {A} (f g : nat -> out A) h a :
  (forall m, f (S m) = g m) -> Ev g h a -> Ev f h a.
Proof.
  intros Hf [n Hn]. exists (S n). intros [|m] Hm; [lia|]. rewrite Hf. apply Hn. lia.
Qed.
Lemma ev_ret {A} h (a : A) : Ev (fun _ => Done h a) h a.
Proof. exists 0. auto. Qed.
Lemma ev_bind {A B} (f : nat -> out A) (k : nat -> heap -> A -> out B) h a h' b :
  Ev f h a -> Ev (fun m => k m h a) h' b -> Ev (fun m => obind (f m) (k m)) h' b.
Proof.
  intros [n Hn] [n' Hn']. exists (max n n'). intros m Hm.
  rewrite (Hn m) by lia. simpl. apply Hn'. lia.
Qed.
Lemma ev_eq {A} (f g : nat -> out A) h a : (forall m, f m = g m) -> Ev g h a -> Ev f h a.
Proof. intros H [n Hn]. exists n. intros m Hm. rewrite H. auto. Qed.
Lemma ev_det {A} (f : nat -> out A) h a h' a' : Ev f h a -> Ev f h' a' -> h = h' /\ a = a'.
Proof.
  intros [n Hn] [n' Hn']. specialize (Hn (max n n')). specialize (Hn' (max n n')).
  rewrite Hn in Hn' by lia. specialize (Hn' ltac:(lia)). split; congruence.
Qed.

(** ** One step of a stream, in any frame *)

Definition StepF (f : nat -> heap -> strm -> step_out) (h : heap) (s : strm)
    (K : strm -> heap -> stream_result -> Prop) : Prop :=
  forall hf, hf ##ₘ h -> exists s' h' r,
    Ev (fun m => f m (hf ∪ h) s) (hf ∪ h') (s', r) /\ hf ##ₘ h' /\ K s' h' r.

Lemma stepF_mono f h s (K K' : strm -> heap -> stream_result -> Prop) :
  (forall s' h' r, K s' h' r -> K' s' h' r) -> StepF f h s K -> StepF f h s K'.
Proof.
  intros HK H hf Hd. destruct (H hf Hd) as (s' & h' & r & E & Hd' & HK0).
  exists s', h', r. auto.
Qed.
Lemma stepF_frame f h h2 s (K : strm -> heap -> stream_result -> Prop) :
  h ⊆ h2 -> StepF f h s K ->
  StepF f h2 s (fun s' h2' r => exists h', h' ⊆ h2' /\ K s' h' r).
Proof.
  intros Hsub H hf Hd.
  destruct (H (hf ∪ (h2 ∖ h))) as (s' & h' & r & E & Hd' & HK).
  - apply map_disjoint_union_l. split.
    + eapply map_disjoint_weaken_r; eauto.
    + now apply map_disjoint_difference_l.
  - assert (hf ∪ (h2 ∖ h) ∪ h = hf ∪ h2) as Eq.
    { rewrite <- (assoc_L (∪)). f_equal.
      rewrite map_union_comm by (now apply map_disjoint_difference_l).
      now apply map_difference_union. }
    rewrite Eq in E. apply map_disjoint_union_l in Hd' as [Hd1 Hd2].
    exists s', (h2 ∖ h ∪ h'), r. split; [|split].
    + now rewrite (assoc_L (∪)).
    + apply map_disjoint_union_r. split; auto.
      eapply map_disjoint_weaken_r; [exact Hd|]. apply map_subseteq_spec. intros i x Hx.
      apply lookup_difference_Some in Hx as [Hx _]. exact Hx.
    + exists h'. split; auto. now apply map_union_subseteq_r.
Qed.

(** The postcondition holds of a part of the heap. *)
Definition Post (Q : heap -> Prop) (h : heap) : Prop := exists hq, hq ⊆ h /\ Q hq.
Lemma post_mono Q h h' : h ⊆ h' -> Post Q h -> Post Q h'.
Proof. intros Hs (hq & H1 & H2). exists hq. split; auto. now transitivity h. Qed.
Lemma post_intro (Q : heap -> Prop) h : Q h -> Post Q h.
Proof. exists h. auto. Qed.
Lemma post_impl (Q R : heap -> Prop) h : (forall h, Q h -> R h) -> Post Q h -> Post R h.
Proof. intros HQ (hq & H1 & H2). exists hq. auto. Qed.
Lemma post_bind (Q R : heap -> Prop) h : (forall h, Q h -> Post R h) -> Post Q h -> Post R h.
Proof. intros HQ (hq & H1 & H2). eapply post_mono; eauto. Qed.

(** ** Streams of events *)

(** What one step of a stream that produces [evs] and then ends ([t = None]) or fails
    gives: a [Noop], the next event, the end or the error; [X] describes the state
    afterwards. *)
Inductive After (Q : heap -> Prop) (t : option stream_error)
    (X : strm -> list event -> heap -> Prop) (evs : list event) (s : strm) (h : heap) :
    stream_result -> Prop :=
| After_noop : X s evs h -> After Q t X evs s h (inl (Some Noop))
| After_event ev evs' :
    evs = ev :: evs' -> ev <> Noop -> X s evs' h -> After Q t X evs s h (inl (Some ev))
| After_end : evs = [] -> t = None -> Post Q h -> After Q t X evs s h (inl None)
| After_err err : evs = [] -> t = Some err -> After Q t X evs s h (inr err).

(** The stream [s] in heap [h] produces [evs] and then ends, leaving a heap with [Q], or
    fails.  If [elem], then [Q] holds as soon as the last event has been produced. *)
Inductive Strm (elem : bool) (Q : heap -> Prop) (t : option stream_error) :
    strm -> list event -> heap -> Prop :=
| Strm_intro s evs h :
    (elem = true -> t = None -> evs = [] -> Post Q h) ->
    StepF NE h s (After Q t (Strm elem Q t) evs) ->
    Strm elem Q t s evs h.

Lemma strm_ind elem Q t (P : strm -> list event -> heap -> Prop) :
  (forall s evs h,
     (elem = true -> t = None -> evs = [] -> Post Q h) ->
     StepF NE h s (After Q t (fun s evs h => Strm elem Q t s evs h /\ P s evs h) evs) ->
     P s evs h) ->
  forall s evs h, Strm elem Q t s evs h -> P s evs h.
Proof.
  intros IH. fix F 4. intros s evs h [s0 evs0 h0 He Hs].
  apply IH; [exact He|]. intros hf Hd.
  destruct (Hs hf Hd) as (s' & h' & r & E & Hd' & HA).
  exists s', h', r. split; [exact E|split; [exact Hd'|]].
  destruct HA as [X|ev evs' E1 E2 X|E1 E2 X|err E1 E2].
  - apply After_noop. split; [exact X|apply F; exact X].
  - eapply After_event; eauto.
  - apply After_end; auto.
  - eapply After_err; eauto.
Qed.

Lemma strm_inv elem Q t s evs h : Strm elem Q t s evs h ->
  (elem = true -> t = None -> evs = [] -> Post Q h) /\
  StepF NE h s (After Q t (Strm elem Q t) evs).
Proof. intros []. auto. Qed.

(** More heap is no harm. *)
Lemma strm_mono elem Q t s evs h : Strm elem Q t s evs h ->
  forall h2, h ⊆ h2 -> Strm elem Q t s evs h2.
Proof.
  revert s evs h. apply (strm_ind _ _ _ (fun s evs h => forall h2, h ⊆ h2 -> Strm elem Q t s evs h2)).
  intros s evs h He Hs h2 Hsub. constructor.
  - intros E1 E2 E3. eapply post_mono; eauto.
  - eapply stepF_mono; [|eapply stepF_frame; eauto].
    intros s' h2' r (h' & Hsub' & HA).
    destruct HA as [[X Y]|ev evs' E1 E2 [X Y]|E1 E2 X|err E1 E2].
    + apply After_noop; auto.
    + eapply After_event; eauto.
    + apply After_end; auto. eapply post_mono; eauto.
    + eapply After_err; eauto.
Qed.

Lemma strm_weaken elem elem' (Q Q' : heap -> Prop) t s evs h :
  (elem' = true -> elem = true) -> (forall h, Q h -> Post Q' h) ->
  Strm elem Q t s evs h -> Strm elem' Q' t s evs h.
Proof.
  intros Hel HQ. revert s evs h. apply strm_ind.
  intros s evs h He Hs. constructor.
  - intros E1 E2 E3. eapply post_bind; eauto.
  - eapply stepF_mono; [|exact Hs]. intros s' h' r HA.
    destruct HA as [[X Y]|ev evs' E1 E2 [X Y]|E1 E2 X|err E1 E2].
    + apply After_noop; auto.
    + eapply After_event; eauto.
    + apply After_end; auto. eapply post_bind; eauto.
    + eapply After_err; eauto.
Qed.
Lemma strm_false elem Q t s evs h : Strm elem Q t s evs h -> Strm false Q t s evs h.
Proof. apply strm_weaken; [discriminate|intros; now apply post_intro]. Qed.
Lemma strm_post elem Q t s evs h : Strm elem Q t s evs h ->
  elem = true -> t = None -> evs = [] -> Post Q h.
Proof. intros H. exact (proj1 (strm_inv _ _ _ _ _ _ H)). Qed.

(** ** Skipping [Noop]s *)

(** Result of [next_event_skip_noop]. *)
Inductive AfterS (Q : heap -> Prop) (t : option stream_error)
    (X : strm -> list event -> heap -> Prop) (evs : list event) (s : strm) (h : heap) :
    stream_result -> Prop :=
| AfterS_event ev evs' :
    evs = ev :: evs' -> ev <> Noop -> X s evs' h -> AfterS Q t X evs s h (inl (Some ev))
| AfterS_end : evs = [] -> t = None -> Post Q h -> AfterS Q t X evs s h (inl None)
| AfterS_err err : evs = [] -> t = Some err -> AfterS Q t X evs s h (inr err).

Lemma sk_ret H s H' s' r : r <> inl (Some Noop) ->
  Ev (fun m => ne (run m) H s) H' (s', r) -> Ev (fun m => sk (run m) H s) H' (s', r).
Proof.
  intros Hr [n Hn]. exists (S n). intros [|m] Hm; [lia|]. cbn [run sk]. unfold sk_body.
  cbv zeta. rewrite (Hn m) by lia. cbn [obind]. destruct r as [[[]|]|]; congruence.
Qed.
Lemma sk_noop H s H' s' x : 
  Ev (fun m => ne (run m) H s) H' (s', inl (Some Noop)) ->
  Ev (fun m => sk (run m) H' s') (fst x) (snd x) ->
  Ev (fun m => sk (run m) H s) (fst x) (snd x).
Proof.
  intros [n Hn] [n' Hn']. exists (S (max n n')). intros [|m] Hm; [lia|]. cbn [run sk].
  unfold sk_body. rewrite (Hn m) by lia. cbn [obind]. apply Hn'. lia.
Qed.

Lemma strm_sk elem Q t s evs h : Strm elem Q t s evs h ->
  StepF SK h s (AfterS Q t (Strm elem Q t) evs).
Proof.
  revert s evs h. apply strm_ind. intros s evs h He Hs hf Hd.
  destruct (Hs hf Hd) as (s' & h' & r & E & Hd' & HA).
  destruct HA as [[X Y]|ev evs' E1 E2 [X Y]|E1 E2 X|err E1 E2].
  - destruct (Y hf Hd') as (s2 & h2 & r2 & E2 & Hd2 & HA2).
    exists s2, h2, r2. split; [|auto].
    exact (sk_noop _ _ _ _ (hf ∪ h2, (s2, r2)) E E2).
  - exists s', h', (inl (Some ev)). split; [apply sk_ret; [congruence|auto]|].
    split; auto. eapply AfterS_event; eauto.
  - exists s', h', (inl None). split; [apply sk_ret; [congruence|auto]|].
    split; auto. apply AfterS_end; auto.
  - exists s', h', (inr err). split; [apply sk_ret; [congruence|auto]|].
    split; auto. eapply AfterS_err; eauto.
Qed.

(** ** Shared sources *)


Lemma with_cell_step f h l s (K : strm -> heap -> stream_result -> Prop) :
  h !! l = None -> StepF f h s K ->
  StepF (fun m H _ => with_cell H l (f m)) (<[l := Cell s]> h) (SShared l)
    (fun s' h' r => s' = SShared l /\
       exists s1 h1, h' = <[l := Cell s1]> h1 /\ h1 !! l = None /\ K s1 h1 r).
Proof.
  intros Hl H hf Hd. apply map_disjoint_insert_r in Hd as [Hfl Hd].
  destruct (H (<[l := Borrowed]> hf)) as (s1 & h1 & r & [n Hn] & Hd1 & HK).
  { apply map_disjoint_insert_l. auto. }
  apply map_disjoint_insert_l in Hd1 as [Hl1 Hd1].
  exists (SShared l), (<[l := Cell s1]> h1), r. split; [|split].
  - exists n. intros m Hm. unfold with_cell.
    rewrite lookup_union_r by auto. rewrite lookup_insert.
    assert (<[l := Borrowed]> (hf ∪ <[l := Cell s]> h) = <[l := Borrowed]> hf ∪ h) as ->.
    { rewrite <- insert_union_r by auto. rewrite insert_insert.
      now rewrite <- insert_union_l. }
    rewrite (Hn m) by auto. cbn [obind]. f_equal.
    rewrite <- insert_union_l, insert_insert. now rewrite insert_union_r by auto.
  - apply map_disjoint_insert_r. auto.
  - split; auto. exists s1, h1. auto.
Qed.

Lemma shared_ne H l : forall m, ne (run (S m)) H (SShared l) = with_cell H l (ne (run m)).
Proof. reflexivity. Qed.

Lemma shared_step h l s (K : strm -> heap -> stream_result -> Prop) :
  h !! l = None -> StepF NE h s K ->
  StepF NE (<[l := Cell s]> h) (SShared l)
    (fun s' h' r => s' = SShared l /\
       exists s1 h1, h' = <[l := Cell s1]> h1 /\ h1 !! l = None /\ K s1 h1 r).
Proof.
  intros Hl H hf Hd.
  destruct (with_cell_step _ _ _ _ _ Hl H hf Hd) as (s' & h' & r & E & Hd' & HK).
  exists s', h', r. split; [|auto]. eapply ev_S; [|exact E]. intros m. apply shared_ne.
Qed.

(** [l] is a cell with a stream of these events. *)
Definition CellX (l : loc) (X : strm -> list event -> heap -> Prop) (evs : list event)
    (h : heap) : Prop :=
  exists s1 h1, h = <[l := Cell s1]> h1 /\ h1 !! l = None /\ X s1 evs h1.

Lemma shared_sk elem Q t s evs h l : h !! l = None -> Strm elem Q t s evs h ->
  StepF SK (<[l := Cell s]> h) (SShared l)
    (AfterS Q t (fun s' evs' h' => s' = SShared l /\ CellX l (Strm elem Q t) evs' h') evs).
Proof.
  intros Hl Hs. revert s evs h Hs Hl.
  apply (strm_ind _ _ _ (fun s evs h => h !! l = None ->
    StepF SK (<[l := Cell s]> h) (SShared l)
     (AfterS Q t (fun s' evs' h' => s' = SShared l /\ CellX l (Strm elem Q t) evs' h') evs))).
  intros s evs h He Hs Hl hf Hd.
  destruct (shared_step _ _ _ _ Hl Hs hf Hd) as (s' & h' & r & E & Hd' & -> & s1 & h1 & -> & Hl1 & HA).
  destruct HA as [[X Y]|ev evs' E1 E2 [X Y]|E1 E2 X|err E1 E2].
  - destruct (Y Hl1 hf Hd') as (s2 & h2 & r2 & E2 & Hd2 & HA2).
    exists s2, h2, r2. split; [|auto].
    exact (sk_noop _ _ _ _ (hf ∪ h2, (s2, r2)) E E2).
  - exists (SShared l), (<[l := Cell s1]> h1), (inl (Some ev)).
    split; [apply sk_ret; [congruence|auto]|].
    split; auto. eapply AfterS_event; eauto. split; auto. exists s1, h1. auto.
  - exists (SShared l), (<[l := Cell s1]> h1), (inl None).
    split; [apply sk_ret; [congruence|auto]|].
    split; auto. apply AfterS_end; auto. eapply post_mono; [|exact X].
    now apply insert_subseteq.
  - exists (SShared l), (<[l := Cell s1]> h1), (inr err).
    split; [apply sk_ret; [congruence|auto]|]. split; auto. eapply AfterS_err; eauto.
Qed.

(** ** Collecting and draining *)

Lemma strm_co elem Q t s evs h : Strm elem Q t s evs h -> forall hf acc, hf ##ₘ h ->
  exists h', Ev (fun m => co (run m) (hf ∪ h) s acc) (hf ∪ h')
               (match t with None => inl (acc ++ evs) | Some err => inr err end) /\
             hf ##ₘ h' /\ (t = None -> Post Q h').
Proof.
  revert s h. induction evs as [|ev0 evs IH]; intros s h Hs hf acc Hd;
    destruct (strm_sk _ _ _ _ _ _ Hs hf Hd) as (s' & h' & r & E & Hd' & HA);
    destruct HA as [ev evs' E1 E2 X|E1 E2 X|err E1 E2]; try discriminate; subst.
  - exists h'. split; [|auto]. destruct E as [n Hn].
    exists (S n). intros [|m] Hm; [lia|]. cbn [run co]. unfold co_body. rewrite (Hn m) by lia.
    cbn [obind]. now rewrite app_nil_r.
  - exists h'. split; [|split; [auto|discriminate]]. destruct E as [n Hn].
    exists (S n). intros [|m] Hm; [lia|]. cbn [run co]. unfold co_body. rewrite (Hn m) by lia.
    reflexivity.
  - injection E1 as <- <-.
    destruct (IH _ _ X hf (acc ++ [ev0]) Hd') as (h2 & [n' Hn'] & Hd2 & HQ).
    exists h2. split; [|auto]. destruct E as [n Hn].
    exists (S (max n n')). intros [|m] Hm; [lia|]. cbn [run co]. unfold co_body.
    rewrite (Hn m) by lia. cbn [obind]. rewrite (Hn' m) by lia.
    now rewrite <- app_assoc.
Qed.

Lemma strm_dr elem Q t s evs h : Strm elem Q t s evs h -> forall hf, hf ##ₘ h ->
  exists s' h', Ev (fun m => dr (run m) (hf ∪ h) s) (hf ∪ h')
               (s', match t with None => inl None | Some err => inr err end) /\
             hf ##ₘ h' /\ (t = None -> Post Q h').
Proof.
  revert s evs h. apply (strm_ind _ _ _ (fun s evs h => forall hf, hf ##ₘ h ->
  exists s' h', Ev (fun m => dr (run m) (hf ∪ h) s) (hf ∪ h')
               (s', match t with None => inl None | Some err => inr err end) /\
             hf ##ₘ h' /\ (t = None -> Post Q h'))).
  intros s evs h He Hs hf Hd.
  destruct (Hs hf Hd) as (s' & h' & r & [n Hn] & Hd' & HA).
  destruct HA as [[X Y]|ev evs' E1 E2 [X Y]|E1 E2 X|err E1 E2].
  - destruct (Y hf Hd') as (s2 & h2 & [n' Hn'] & Hd2 & HQ).
    exists s2, h2. split; [|auto]. exists (S (max n n')). intros [|m] Hm; [lia|].
    cbn [run dr]. unfold dr_body. rewrite (Hn m) by lia. cbn [obind]. apply Hn'. lia.
  - destruct (Y hf Hd') as (s2 & h2 & [n' Hn'] & Hd2 & HQ).
    exists s2, h2. split; [|auto]. exists (S (max n n')). intros [|m] Hm; [lia|].
    cbn [run dr]. unfold dr_body. rewrite (Hn m) by lia. cbn [obind]. apply Hn'. lia.
  - exists (SRemove s'), h'. subst t. split; [|auto]. exists (S n). intros [|m] Hm; [lia|].
    cbn [run dr]. unfold dr_body. rewrite (Hn m) by lia. reflexivity.
  - exists (SRemove s'), h'. subst t. split; [|split; [auto|discriminate]].
    exists (S n). intros [|m] Hm; [lia|].
    cbn [run dr]. unfold dr_body. rewrite (Hn m) by lia. reflexivity.
Qed.
