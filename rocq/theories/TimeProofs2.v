(** Proofs for C75: what follows from programs being alike from some time on; iterators that use
    up a common supply. *)
From Coq Require Import String ZArith Lia.
From stdpp Require Import gmap.
From Verif Require Import Text Event Input Parse Selector Machine MachineState.
From Verif Require Import SpecTransform SpecState SpecStop SpecTime.
From Verif Require Import StateProofs3 StateProofs4 StopProofs StopProofs2 TimeProofs.
Local Open Scope nat_scope.

Section Two.
Context {X W V : Type} (le : X -> X -> Prop) (R : X -> W -> V -> Prop).
Context (le_refl : forall x, le x x) (le_trans : forall x y z, le x y -> le y z -> le x z).

Lemma since_in_step n evs x (b : once W) (c : once V) w v : SinceCalls le R x (b w) (c v) ->
  match wtransform n evs b w, wtransform n evs c v with
  | WOutOfFuel, WOutOfFuel | WPanicked, WPanicked => True
  | WDone h r, WDone h' r' => r = r' /\ exists y, le x y /\ R y (snd h) (snd h')
  | _, _ => False
  end.
Proof.
  intros Hp. pose proof (sim_transform le R le_refl le_trans n evs x b c w v Hp) as H.
  destruct H as [| |z h h' r r' Hz Hh Hr]; [done..|]. split; [done|]. exists z. split; [done|apply Hh].
Qed.
Lemma since_gives evs x (b : once W) (c : once V) w v r : SinceCalls le R x (b w) (c v) ->
  (forall w', GivesIn evs b w r w' -> exists v' y, GivesIn evs c v r v' /\ le x y /\ R y w' v') /\
  (forall v', GivesIn evs c v r v' -> exists w' y, GivesIn evs b w r w' /\ le x y /\ R y w' v').
Proof.
  intros Hp. split.
  - intros w' (n & h & E). pose proof (since_in_step n evs x b c w v Hp) as H. rewrite E in H.
    destruct (wtransform n evs c v) as [| |[h' v'] r'] eqn:E'; [done..|]. destruct H as (-> & y & Hy & H).
    exists v', y. split_and!; [|done..]. by exists n, h'.
  - intros v' (n & h & E). pose proof (since_in_step n evs x b c w v Hp) as H. rewrite E in H.
    destruct (wtransform n evs b w) as [| |[h' w'] r'] eqn:E'; [done..|]. destruct H as (-> & y & Hy & H).
    exists w', y. split_and!; [|done..]. by exists n, h'.
Qed.
End Two.

(** ** Iterators cut off after a number of items *)

Section Cap.
Context {W : Type} (N : nat).

Definition cap_live (f : live W) : live W := fun k w =>
  let '(w', r) := f k w in
  (w', if k <? N then r else match r with inl (Some _) => inl None | r => r end).
Fixpoint cap_content (c : wcontent W) : wcontent W :=
  match c with
  | WCPlain c => WCPlain c
  | WCLive f => WCLive (cap_live f)
  | WCOk c => WCOk (cap_content c)
  end.

Fixpoint cap_op (o : wop W) : wop W :=
  let once (b : W -> W * list (wop W)) := fun w => let '(w', p) := b w in (w', map cap_op p) in
  let iter (it : nat -> W -> W * option (W -> W * list (wop W))) := fun k w =>
    let '(w', r) := it k w in
    (w', if k <? N
         then match r with
              | Some b => Some (fun w => let '(w', p) := b w in (w', map cap_op p))
              | None => None
              end
         else None) in
  match o with
  | WApply p => WApply (map cap_op p)
  | WApplyEither first p other => WApplyEither first (map cap_op p) other
  | WSelect direct sel b => WSelect direct sel (fun k => once (b k))
  | WSelectOnce direct sel b => WSelectOnce direct sel (once b)
  | WPrepend c => WPrepend (cap_content c)
  | WAppend c => WAppend (cap_content c)
  | WReplace c => WReplace (cap_content c)
  | WRepeat it => WRepeat (iter it)
  | WRepeatOrElse it b => WRepeatOrElse (iter it) (once b)
  | WSubselectContents b => WSubselectContents (once b)
  | WSubselect direct sel b => WSubselect direct sel (fun k => once (b k))
  | WSubselectOnce direct sel b => WSubselectOnce direct sel (once b)
  | WPrependContents c => WPrependContents (cap_content c)
  | WAppendContents c => WAppendContents (cap_content c)
  | WReplaceContents c => WReplaceContents (cap_content c)
  | WRepeatContents it => WRepeatContents (iter it)
  | WRepeatContentsOrElse it b => WRepeatContentsOrElse (iter it) (once b)
  | o => o
  end.
Definition cap_once (b : once W) : once W := fun w => let '(w', p) := b w in (w', map cap_op p).
Definition cap_iter (it : iterator W) : iterator W := fun k w =>
  let '(w', r) := it k w in
  (w', if k <? N then match r with Some b => Some (cap_once b) | None => None end else None).

Lemma wop_ind_makes (P : wop W -> Prop) :
  (forall o, (forall q o', Makes o q -> In o' q -> P o') -> P o) -> forall o, P o.
Proof.
  intros H. fix IH 1. intros o. apply H. intros q o' Hq.
  assert (forall p o', In o' p -> P o') as IHp.
  { clear - IH. fix IHp 1. intros [|a p] o'; [intros []|].
    intros [E|Hi]; [rewrite <- E; apply IH|exact (IHp p o' Hi)]. }
  assert (forall (it : iterator W), (forall k v b w, snd (it k v) = Some b -> In o' (snd (b w)) -> P o') ->
    (exists k v v' b w, it k v = (v', Some b) /\ q = snd (b w)) -> In o' q -> P o') as Hit.
  { intros it Hi (k & v & v' & b & w & E & ->). eapply Hi. by rewrite E. }
  destruct o; cbn in Hq; try contradiction.
  - subst. apply IHp.
  - subst. apply IHp.
  - destruct Hq as (k & w & ->). apply IHp.
  - destruct Hq as (w & ->). apply IHp.
  - revert Hq. apply Hit. intros k v b w. destruct (it k v) as [v2 [b2|]]; cbn; [|discriminate].
    intros [= <-]. apply IHp.
  - destruct Hq as [Hq|(w & ->)]; [|apply IHp].
    revert Hq. apply Hit. intros k v b' w. destruct (it k v) as [v2 [b2|]]; cbn; [|discriminate].
    intros [= <-]. apply IHp.
  - destruct Hq as (w & ->). apply IHp.
  - destruct Hq as (k & w & ->). apply IHp.
  - destruct Hq as (w & ->). apply IHp.
  - revert Hq. apply Hit. intros k v b w. destruct (it k v) as [v2 [b2|]]; cbn; [|discriminate].
    intros [= <-]. apply IHp.
  - destruct Hq as [Hq|(w & ->)]; [|apply IHp].
    revert Hq. apply Hit. intros k v b' w. destruct (it k v) as [v2 [b2|]]; cbn; [|discriminate].
    intros [= <-]. apply IHp.
Qed.

Lemma cap_live_ends f : EndsEvents (cap_live f).
Proof.
  assert (forall n k, N - k = n -> EndsEvents (fun i => cap_live f (k + i))) as G.
  { induction n as [n IH] using lt_wf_ind. intros k En. constructor. intros w w' ev E.
    unfold cap_live in E at 1. rewrite Nat.add_0_r in E. destruct (f k w) as [w2 r].
    destruct (Nat.ltb_spec k N) as [Hk|Hk].
    - eapply ends_events_ext; [|apply (IH (N - S k) ltac:(lia) (S k) eq_refl)].
      intros i. cbn. by rewrite Nat.add_succ_r.
    - destruct r as [[?|]|]; discriminate. }
  exact (G _ 0 eq_refl).
Qed.
Lemma cap_iter_ends it : Ends (cap_iter it).
Proof.
  assert (forall n k, N - k = n -> Ends (fun i => cap_iter it (k + i))) as G.
  { induction n as [n IH] using lt_wf_ind. intros k En. constructor. intros w w' b E.
    unfold cap_iter in E at 1. rewrite Nat.add_0_r in E. destruct (it k w) as [w2 r].
    destruct (Nat.ltb_spec k N) as [Hk|Hk].
    - eapply ends_ext; [|apply (IH (N - S k) ltac:(lia) (S k) eq_refl)].
      intros i. cbn. by rewrite Nat.add_succ_r.
    - discriminate. }
  exact (G _ 0 eq_refl).
Qed.
Lemma cap_content_ends c f : Reads (cap_content c) f -> EndsEvents f.
Proof. induction c; cbn; [done| |done]. intros ->. apply cap_live_ends. Qed.
Lemma cap_iter_some it k v v' b : cap_iter it k v = (v', Some b) ->
  exists b', it k v = (v', Some b') /\ b = cap_once b'.
Proof.
  unfold cap_iter. destruct (it k v) as [v2 [b2|]], (k <? N); intros [= <- E]; try discriminate. eauto.
Qed.
Lemma cap_once_snd b w : snd (cap_once b w) = map cap_op (snd (b w)).
Proof. unfold cap_once. by destruct (b w). Qed.
Lemma cap_makes o q : Makes (cap_op o) q -> exists p, Makes o p /\ q = map cap_op p.
Proof.
  destruct o; cbn; try (by intros []); try (intros ->; by eexists).
  - intros (k & w & ->). exists (snd (b k w)). split; [eauto|]. apply (cap_once_snd (b k)).
  - intros (w & ->). exists (snd (b w)). split; [eauto|]. apply (cap_once_snd b).
  - intros (k & v & v' & b & w & E & ->). apply (cap_iter_some it) in E as (b' & E & ->).
    exists (snd (b' w)). split; [eauto 8|]. apply cap_once_snd.
  - intros [(k & v & v' & b' & w & E & ->)|(w & ->)].
    + apply (cap_iter_some it) in E as (b2 & E & ->).
      exists (snd (b2 w)). split; [eauto 9|]. apply cap_once_snd.
    + exists (snd (b w)). split; [eauto|]. apply (cap_once_snd b).
  - intros (w & ->). exists (snd (b w)). split; [eauto|]. apply (cap_once_snd b).
  - intros (k & w & ->). exists (snd (b k w)). split; [eauto|]. apply (cap_once_snd (b k)).
  - intros (w & ->). exists (snd (b w)). split; [eauto|]. apply (cap_once_snd b).
  - intros (k & v & v' & b & w & E & ->). apply (cap_iter_some it) in E as (b' & E & ->).
    exists (snd (b' w)). split; [eauto 8|]. apply cap_once_snd.
  - intros [(k & v & v' & b' & w & E & ->)|(w & ->)].
    + apply (cap_iter_some it) in E as (b2 & E & ->).
      exists (snd (b2 w)). split; [eauto 9|]. apply cap_once_snd.
    + exists (snd (b w)). split; [eauto|]. apply (cap_once_snd b).
Qed.
Lemma cap_asks o it : Asks (cap_op o) it -> Ends it.
Proof. destruct o; cbn; try contradiction; intros ->; apply (cap_iter_ends it0). Qed.
Lemma cap_puts o f : Puts (cap_op o) f -> EndsEvents f.
Proof. destruct o; cbn; try contradiction; apply cap_content_ends. Qed.

Lemma cap_ending p : Ending (map cap_op p).
Proof.
  assert (forall o q, Makes (cap_op o) q -> Ending q) as G.
  { apply (wop_ind_makes (fun o => forall q, Makes (cap_op o) q -> Ending q)).
    intros o IH q Hq. apply cap_makes in Hq as (p' & Hp & ->). constructor.
    - intros o' it Hi. apply in_map_iff in Hi as (o2 & <- & _). apply cap_asks.
    - intros o' f Hi. apply in_map_iff in Hi as (o2 & <- & _). apply cap_puts.
    - intros o' q Hi. apply in_map_iff in Hi as (o2 & <- & Hi). by eapply IH. }
  constructor.
  - intros o' it Hi. apply in_map_iff in Hi as (o2 & <- & _). apply cap_asks.
  - intros o' f Hi. apply in_map_iff in Hi as (o2 & <- & _). apply cap_puts.
  - intros o' q Hi. apply in_map_iff in Hi as (o2 & <- & Hi). apply G.
Qed.

(** ** The supply *)

Context (m : W -> nat).
Definition later (x y : nat) : Prop := y <= x.
Definition supply (x : nat) (w v : W) : Prop := w = v /\ m w <= x.
Lemma later_refl x : later x x.
Proof. unfold later. lia. Qed.
Lemma later_trans x y z : later x y -> later y z -> later x z.
Proof. unfold later. lia. Qed.

Lemma since_once x (b : once W) : (forall w, m (fst (b w)) <= m w) ->
  (forall w x, x <= N -> Since later supply x (snd (b w)) (map cap_op (snd (b w)))) ->
  x <= N -> SinceOnce later supply x b (cap_once b).
Proof.
  intros Hm Hs Hx. constructor. intros y w v Hy [<- Hw]. unfold cap_once.
  specialize (Hm w). specialize (Hs w y). destruct (b w) as [w' p]. cbn in Hm, Hs.
  apply (I_calls _ _ y y); [apply later_refl|split; [done|lia]|]. apply Hs. unfold later in Hy. lia.
Qed.
Lemma since_iter x it : 
  (forall k w w' b, it k w = (w', Some b) -> m w' < m w) ->
  (forall k w w', it k w = (w', None) -> m w' <= m w) ->
  (forall k w w' b, it k w = (w', Some b) -> forall x, x <= N -> SinceOnce later supply x b (cap_once b)) ->
  x <= N -> SinceIter later supply x it (cap_iter it).
Proof.
  intros Hs Hn Hb Hx. apply (I_iter _ _ _ (fun k y => y + k <= N)); [lia|unfold later; intros; lia|].
  intros k y w v Hk [<- Hw]. unfold cap_iter. destruct (it k w) as [w' [b|]] eqn:E.
  - pose proof (Hs _ _ _ _ E). destruct (Nat.ltb_spec k N) as [HkN|HkN]; [|lia].
    apply (I_some _ _ _ _ (y - 1)); [unfold later; lia|split; [done|lia]|lia|].
    eapply Hb; [done|lia].
  - pose proof (Hn _ _ _ E). destruct (k <? N);
    (apply (I_none _ _ _ _ y); [apply later_refl|split; [done|lia]]).
Qed.
Lemma since_content x c :
  (forall f k w w' ev, Reads c f -> f k w = (w', inl (Some ev)) -> m w' < m w) ->
  (forall f k w, Reads c f -> m (fst (f k w)) <= m w) ->
  x <= N -> SinceContent later supply x c (cap_content c).
Proof.
  intros Hs Hn Hx. induction c as [c|f|c IH]; cbn [cap_content Reads] in *.
  - constructor.
  - apply (I_live _ _ _ (fun k y => y + k <= N)); [lia|unfold later; intros; lia|].
    intros k y w v Hk [<- Hw]. specialize (Hn f k w eq_refl).
    unfold cap_live, SinceAnswer. destruct (f k w) as [w' r] eqn:E. cbn [fst snd] in Hn |- *.
    destruct r as [[ev|]|err].
    + pose proof (Hs _ _ _ _ _ eq_refl E). destruct (Nat.ltb_spec k N) as [HkN|HkN]; [|lia].
      exists (y - 1). split; [unfold later; lia|]. split; [split; cbn; [done|lia]|]. split; [done|]. intros. lia.
    + exists y. split; [apply later_refl|]. split; [split; cbn; [done|lia]|].
      split; [by destruct (k <? N)|by intros ? [=]].
    + exists y. split; [apply later_refl|]. split; [split; cbn; [done|lia]|].
      split; [by destruct (k <? N)|by intros ? [=]].
  - constructor. by apply IH.
Qed.

Lemma since_cap p : Drains m p -> forall x, x <= N -> Since later supply x p (map cap_op p).
Proof.
  induction 1 as [p H1 H2 H3 H4 H5 H6 H7 IH7 H8 IH8]. intros x Hx.
  assert (forall o b x, In o p -> Gets o b -> x <= N -> SinceOnce later supply x b (cap_once b)) as Ho.
  { intros o b y Hi Hg Hy. apply since_once; [intros w; by eapply H6| |done]. intros w z Hz. by eapply IH7. }
  assert (forall o it x, In o p -> Asks o it -> (forall k v v' b, it k v = (v', Some b) -> Gets o b) ->
    x <= N -> SinceIter later supply x it (cap_iter it)) as Hit.
  { intros o it y Hi Ha Hg Hy. apply since_iter; [intros; by eapply H1|intros; by eapply H2| |done].
    intros k w w' b E z Hz. eapply Ho; eauto. }
  assert (forall o c x, In o p -> (forall f, Reads c f -> Puts o f) ->
    x <= N -> SinceContent later supply x c (cap_content c)) as Hc.
  { intros o c y Hi Hf Hy. apply since_content; [intros; eapply H3; eauto|intros; eapply H4; eauto|done]. }
  assert (forall q, (forall o, In o q -> In o p) -> Since later supply x q (map cap_op q)) as G.
  2:{ by apply G. }
  induction q as [|o q IH]; intros Hq; cbn [map]; constructor; [|apply IH; intros; apply Hq; by right].
  assert (In o p) as Hi by (apply Hq; by left). clear IH Hq.
  destruct o; cbn [cap_op]; try (by constructor).
  - constructor. eapply IH8; eauto.
  - constructor. eapply IH8; eauto.
  - constructor. intros y w v events Hy [<- Hw]. exists y. split_and!; [apply later_refl|split; [done|]|done].
    specialize (H5 _ w events Hi). lia.
  - constructor. intros k. eapply (Ho _ (b k)); [exact Hi|cbn; eauto|done].
  - constructor. eapply (Ho _ b); [exact Hi|cbn; eauto|done].
  - constructor. eapply Hc; [exact Hi|done|done].
  - constructor. eapply Hc; [exact Hi|done|done].
  - constructor. eapply Hc; [exact Hi|done|done].
  - constructor. eapply (Hit _ it); [exact Hi|done|cbn; eauto|done].
  - constructor; [eapply (Hit _ it); [exact Hi|done|cbn; eauto 6|done]|eapply (Ho _ b); [exact Hi|cbn; eauto|done]].
  - constructor. eapply (Ho _ b); [exact Hi|cbn; eauto|done].
  - constructor. intros k. eapply (Ho _ (b k)); [exact Hi|cbn; eauto|done].
  - constructor. eapply (Ho _ b); [exact Hi|cbn; eauto|done].
  - constructor. eapply Hc; [exact Hi|done|done].
  - constructor. eapply Hc; [exact Hi|done|done].
  - constructor. eapply Hc; [exact Hi|done|done].
  - constructor. eapply (Hit _ it); [exact Hi|done|cbn; eauto|done].
  - constructor; [eapply (Hit _ it); [exact Hi|done|cbn; eauto 6|done]|eapply (Ho _ b); [exact Hi|cbn; eauto|done]].
Qed.
End Cap.

Lemma drained_returns {W} (m : W -> nat) evs (b : once W) w : Drains m (snd (b w)) ->
  exists r w', GivesIn evs b w r w' /\ m w' <= m (fst (b w)).
Proof.
  intros Hd. set (N := m (fst (b w))). 
  assert (SinceCalls later (supply m) N (b w) (cap_once N b w)) as Hs.
  { unfold cap_once. pose proof (since_cap N m _ Hd N (le_n N)) as H. unfold N in *.
    destruct (b w) as [w' p]. cbn in *. eapply I_calls; [apply later_refl|by split|done]. }
  destruct (ending_returns evs (cap_once N b) w) as (r & v' & Hg & _).
  { rewrite cap_once_snd. apply cap_ending. }
  destruct (proj2 (since_gives later (supply m) later_refl later_trans evs N b _ w w r Hs) v' Hg)
    as (w' & y & Hw & Hy & _ & Hm).
  exists r, w'. split; [done|]. unfold later in Hy. lia.
Qed.
