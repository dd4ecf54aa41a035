(** Proofs for C83: [repeat] with state. *)
From Coq Require Import List Lia.
From stdpp Require Import gmap.
From Verif Require Import Text Event Input Parse Selector Machine MachineState.
From Verif Require Import SpecTransform SpecState SpecAlike SpecRepeatState StateProofs StateProofs2 StateProofs4 AlikeProofs2 MoveProofs.
Local Open Scope nat_scope.

Section Repeat.
Context {W : Type}.
Implicit Types (h : wheap W) (s : wstrm W) (i : items W).

(** ** Results with enough fuel *)

Lemma wle_run_le n m : n <= m -> wle_engine (W := W) (wrun n) (wrun m).
Proof.
  induction 1 as [|m _ IH]; [repeat split; intros; apply wle_refl|].
  destruct IH as (H1 & H2 & H3 & H4), (wle_run (W := W) m) as (K1 & K2 & K3 & K4).
  repeat split; intros; eapply wle_trans; eauto.
Qed.
Lemma wle_done {A} (o o' : wout W A) h a : wle o o' -> o = WDone h a -> o' = WDone h a.
Proof. intros [->| ->]; [discriminate|done]. Qed.

Definition NeTo h s h' x : Prop := exists n, wne (wrun n) h s = WDone h' x.
Definition SkTo h s h' x : Prop := exists n, wsk (wrun n) h s = WDone h' x.
Definition CoTo h s acc h' (r : list event + stream_error) : Prop := exists n, wco (wrun n) h s acc = WDone h' r.

Lemma ne_more n m h s h' x : n <= m -> wne (wrun n) h s = WDone h' x -> wne (wrun m) h s = WDone h' x.
Proof. intros Hle. apply wle_done. by apply (wle_run_le n m Hle). Qed.
Lemma sk_more n m h s h' x : n <= m -> wsk (wrun n) h s = WDone h' x -> wsk (wrun m) h s = WDone h' x.
Proof. intros Hle. apply wle_done. by apply (wle_run_le n m Hle). Qed.
Lemma co_more n m h s acc h' x : n <= m -> wco (wrun n) h s acc = WDone h' x -> wco (wrun m) h s acc = WDone h' x.
Proof. intros Hle. apply wle_done. by apply (wle_run_le n m Hle). Qed.
Lemma co_det h s acc h1 r1 h2 r2 : CoTo h s acc h1 r1 -> CoTo h s acc h2 r2 -> h1 = h2 /\ r1 = r2.
Proof.
  intros (n & E1) (m & E2). apply (co_more _ (n + m)) in E1; [|lia]. apply (co_more _ (n + m)) in E2; [|lia].
  rewrite E1 in E2. by injection E2.
Qed.

(** What [sk] and [co] do after one event. *)
Definition noop (r : stream_result) : bool := match r with inl (Some Noop) => true | _ => false end.
Lemma sk_noop h s h' s' x y : NeTo h s h' (s', inl (Some Noop)) -> SkTo h' s' x y -> SkTo h s x y.
Proof.
  intros (n & E) (m & E'). exists (S (n + m)). cbn [wrun wsk]. unfold wsk_body.
  rewrite (ne_more n (n + m) _ _ _ _ ltac:(lia) E). cbn. by apply (sk_more m); [lia|].
Qed.
Lemma sk_event h s h' s' r : NeTo h s h' (s', r) -> noop r = false -> SkTo h s h' (s', r).
Proof.
  intros (n & E) Hr. exists (S n). cbn [wrun wsk]. unfold wsk_body. rewrite E. cbn. by destruct r as [[[]|]|].
Qed.
Lemma sk_inv n h s h' x : wsk (wrun (S n)) h s = WDone h' x -> exists h1 s1 r1,
  wne (wrun n) h s = WDone h1 (s1, r1) /\
  if noop r1 then wsk (wrun n) h1 s1 = WDone h' x else h' = h1 /\ x = (s1, r1).
Proof.
  cbn [wrun wsk]. unfold wsk_body. destruct (wne (wrun n) h s) as [| |h1 [s1 r1]] eqn:E; cbn; try discriminate.
  intros H. exists h1, s1, r1. split; [done|]. destruct r1 as [[[]|]|]; cbn; try done; by injection H as <- <-.
Qed.

Definition go_on (k : nat) h s (r : stream_result) acc h' (res : list event + stream_error) : Prop :=
  match r with
  | inl (Some ev) => wco (wrun k) h s (acc ++ [ev]) = WDone h' res
  | inl None => h' = h /\ res = inl acc
  | inr e => h' = h /\ res = inr e
  end.
Lemma co_inv n h s acc h' res : wco (wrun (S n)) h s acc = WDone h' res -> exists h1 s1 r1,
  wsk (wrun n) h s = WDone h1 (s1, r1) /\ go_on n h1 s1 r1 acc h' res.
Proof.
  cbn [wrun wco]. unfold wco_body. destruct (wsk (wrun n) h s) as [| |h1 [s1 r1]] eqn:E; cbn; try discriminate.
  intros H. exists h1, s1, r1. split; [done|]. destruct r1 as [[]|]; cbn; try done; by injection H as <- <-.
Qed.
Lemma co_intro n h s acc h1 s1 r1 h' res : SkTo h s h1 (s1, r1) -> go_on n h1 s1 r1 acc h' res -> CoTo h s acc h' res.
Proof.
  intros (m & E) H. exists (S (n + m)). cbn [wrun wco]. unfold wco_body.
  rewrite (sk_more m (n + m) _ _ _ _ ltac:(lia) E). cbn.
  destruct r1 as [[ev|]|e]; cbn in H; [by apply (co_more n); [lia|]|by destruct H as [-> ->]..].
Qed.
Lemma co_transfer h s h' s' acc x res :
  (forall y z, SkTo h' s' y z -> SkTo h s y z) -> CoTo h' s' acc x res -> CoTo h s acc x res.
Proof.
  intros H ([|n] & E); [discriminate|]. apply co_inv in E as (h1 & s1 & r1 & E & Hg).
  eapply co_intro; [apply H; eexists; exact E|exact Hg].
Qed.
Lemma co_noop h s h' s' acc x res : NeTo h s h' (s', inl (Some Noop)) -> CoTo h' s' acc x res -> CoTo h s acc x res.
Proof. intros H. apply co_transfer. intros y z. by apply sk_noop. Qed.

(** ** A stream that is passed on event by event, and then another *)

(** [E s] passes the events of [s] on; at their end it continues as [N]. *)
Record Passes (E : wstrm W -> wstrm W) (N D : wstrm W) : Prop :=
  { p_some : forall n h s h' s' ev, wne (wrun n) h s = WDone h' (s', inl (Some ev)) ->
      wne (wrun (S n)) h (E s) = WDone h' (E s', inl (Some ev));
    p_none : forall n h s h' s', wne (wrun n) h s = WDone h' (s', inl None) ->
      wne (wrun (S n)) h (E s) = WDone h' (N, inl (Some Noop));
    p_fail : forall n h s h' s' e, wne (wrun n) h s = WDone h' (s', inr e) ->
      wne (wrun (S n)) h (E s) = WDone h' (D, inr e);
    p_inv : forall n h s h' x, wne (wrun (S n)) h (E s) = WDone h' x ->
      exists s' r, wne (wrun n) h s = WDone h' (s', r) }.
Lemma p_step E N D n h s h' s' r : Passes E N D -> wne (wrun n) h s = WDone h' (s', r) ->
  wne (wrun (S n)) h (E s) = WDone h' (match r with
    | inl (Some ev) => (E s', inl (Some ev)) | inl None => (N, inl (Some Noop)) | inr e => (D, inr e) end).
Proof.
  intros HP. destruct r as [[ev|]|e]; [by apply (p_some _ _ _ HP)|by apply (p_none _ _ _ HP)|by apply (p_fail _ _ _ HP)].
Qed.

Lemma pass_sk E N D n : Passes E N D -> forall h s h' s' r, wsk (wrun n) h s = WDone h' (s', r) ->
  match r with
  | inl (Some ev) => SkTo h (E s) h' (E s', inl (Some ev))
  | inl None => forall x y, SkTo h' N x y -> SkTo h (E s) x y
  | inr e => SkTo h (E s) h' (D, inr e)
  end.
Proof.
  intros HP. induction n as [|n IH]; intros h s h' s' r H; [discriminate|].
  apply sk_inv in H as (h1 & s1 & r1 & H1 & H2). pose proof (p_step _ _ _ _ _ _ _ _ _ HP H1) as H3.
  destruct (noop r1) eqn:Er.
  - assert (r1 = inl (Some Noop)) as -> by (destruct r1 as [[[]|]|]; done).
    specialize (IH _ _ _ _ _ H2). destruct r as [[ev|]|e].
    + eapply sk_noop; [eexists; exact H3|exact IH].
    + intros x y Hxy. eapply sk_noop; [eexists; exact H3|by apply IH].
    + eapply sk_noop; [eexists; exact H3|exact IH].
  - destruct H2 as [-> [= -> ->]]. destruct r1 as [[ev|]|e].
    + apply sk_event; [eexists; exact H3|done].
    + intros x y Hxy. eapply sk_noop; [eexists; exact H3|done].
    + apply sk_event; [eexists; exact H3|done].
Qed.
Lemma pass_co E N D n : Passes E N D -> forall h s acc h' r, wco (wrun n) h s acc = WDone h' r ->
  match r with
  | inl l => forall x res, CoTo h' N l x res -> CoTo h (E s) acc x res
  | inr e => CoTo h (E s) acc h' (inr e)
  end.
Proof.
  intros HP. induction n as [|n IH]; intros h s acc h' r H; [discriminate|].
  apply co_inv in H as (h1 & s1 & r1 & H1 & H2). pose proof (pass_sk _ _ _ _ HP _ _ _ _ _ H1) as H3.
  destruct r1 as [[ev|]|e]; cbn in H2.
  - specialize (IH _ _ _ _ _ H2). destruct r as [l|e].
    + intros x res Hx. destruct (IH x res Hx) as [m Hm]. by eapply co_intro.
    + destruct IH as [m Hm]. by eapply co_intro.
  - destruct H2 as [-> ->]. intros x res Hx. eapply co_transfer; [|exact Hx]. done.
  - destruct H2 as [-> ->]. by apply (co_intro 0 _ _ _ _ _ _ _ _ H3).
Qed.

(** The converse; [fin n m]: with the fuel [m] for the next event and [n] for the others. *)
Definition fin n m h s acc x res : Prop := exists h1 s1 r1,
  wsk (wrun m) h s = WDone h1 (s1, r1) /\ go_on n h1 s1 r1 acc x res.
Definition before (n' m' n m : nat) : Prop := n' < n \/ n' = n /\ m' < m.

Lemma pass_sk_inv E N D n : Passes E N D -> forall h s x y r, wsk (wrun n) h (E s) = WDone x (y, r) ->
  exists h1 s1 r1, SkTo h s h1 (s1, r1) /\
  match r1 with
  | inl (Some ev) => x = h1 /\ y = E s1 /\ r = inl (Some ev)
  | inl None => exists m, m < n /\ wsk (wrun m) h1 N = WDone x (y, r)
  | inr e => x = h1 /\ r = inr e
  end.
Proof.
  intros HP. induction n as [|n IH]; intros h s x y r H; [discriminate|].
  apply sk_inv in H as (h0 & s0 & r0 & H1 & H2). destruct n as [|n]; [discriminate|].
  destruct (p_inv _ _ _ HP _ _ _ _ _ H1) as (s1 & r1 & H3). pose proof (p_step _ _ _ _ _ _ _ _ _ HP H3) as H4.
  rewrite H1 in H4. destruct r1 as [[ev|]|e]; injection H4 as -> ->.
  - destruct (noop (inl (Some ev))) eqn:Er.
    + assert (ev = Noop) as -> by (destruct ev; done). destruct (IH _ _ _ _ _ H2) as (h2 & s2 & r2 & H5 & H6).
      exists h2, s2, r2. split; [eapply sk_noop; [eexists; exact H3|exact H5]|].
      destruct r2 as [[ev|]|e]; [done| |done]. destruct H6 as (m & Hm & H6). exists m. split; [lia|done].
    + destruct H2 as [-> [= -> ->]]. exists h0, s1, (inl (Some ev)). split; [|done].
      apply sk_event; [eexists; exact H3|done].
  - cbn in H2. exists h0, s1, (inl None). split; [apply sk_event; [eexists; exact H3|done]|].
    exists (S n). split; [lia|done].
  - cbn in H2. destruct H2 as [-> [= -> ->]]. exists h0, s1, (inr e). split; [|done].
    apply sk_event; [eexists; exact H3|done].
Qed.
Lemma pass_fin E N D : Passes E N D -> forall n m h s acc x res, fin n m h (E s) acc x res ->
  exists h1 r1, CoTo h s acc h1 r1 /\
  match r1 with
  | inl l => exists n' m', before n' m' n m /\ fin n' m' h1 N l x res
  | inr e => x = h1 /\ res = inr e
  end.
Proof.
  intros HP. induction n as [n IH] using lt_wf_ind. intros m h s acc x res (h0 & s0 & r0 & H1 & H2).
  destruct (pass_sk_inv _ _ _ _ HP _ _ _ _ _ H1) as (h1 & s1 & r1 & H3 & H4). destruct r1 as [[ev|]|e].
  - destruct H4 as (-> & -> & ->). cbn in H2. destruct n as [|n]; [discriminate|].
    apply co_inv in H2. destruct (IH n ltac:(lia) n _ _ _ _ _ H2) as (h2 & r2 & [k H5] & H6).
    exists h2, r2. split; [by eapply co_intro|]. destruct r2 as [l|e]; [|done].
    destruct H6 as (n' & m' & Hb & H6). exists n', m'. split; [|done]. left. destruct Hb; lia.
  - exists h1, (inl acc). split; [by apply (co_intro 0 _ _ _ _ _ _ _ _ H3)|].
    destruct H4 as (m' & Hm & H4). exists n, m'. split; [by right|]. by exists h0, s0, r0.
  - destruct H4 as (-> & ->). cbn in H2. destruct H2 as [-> ->]. exists h1, (inr e). split; [|done].
    by apply (co_intro 0 _ _ _ _ _ _ _ _ H3).
Qed.
Lemma fin_co n m h s acc x res : fin n m h s acc x res -> CoTo h s acc x res.
Proof. intros (h1 & s1 & r1 & H1 & H2). eapply co_intro; [eexists; exact H1|exact H2]. Qed.

Lemma passes_repeat t i : Passes (fun s => WSRepeat (Some (WREmit t s i))) (WSRepeat (Some (WRNext t i))) (WSRepeat None).
Proof.
  split; intros n h s h' *.
  - intros H. cbn [wrun wne wne_body]. unfold won_ok. by rewrite H.
  - intros H. cbn [wrun wne wne_body]. unfold won_ok. by rewrite H.
  - intros H. cbn [wrun wne wne_body]. unfold won_ok. by rewrite H.
  - cbn [wrun wne wne_body]. unfold won_ok. destruct (wne (wrun n) h s) as [| |h1 [s1 [[]|]]]; try discriminate;
      intros H; injection H as <- <-; eauto.
Qed.

(** ** The copies *)

Lemma alike_once (b : once W) : AlikeOnce eq b b.
Proof. constructor; intros w v ->; [done|apply alike_refl]. Qed.
Lemma fresh_above (g : gmap loc (wcell W)) l : g !! mv (wfresh_loc g) l = None.
Proof.
  destruct (g !! mv _ l) as [c|] eqn:E; [|done]. exfalso.
  destruct (fold_locs g) as [H _]. specialize (H (mv (wfresh_loc g) l)). rewrite E in H.
  specialize (H ltac:(eauto)). unfold mv, wfresh_loc in H. lia.
Qed.
Lemma sim_start (g : gmap loc (wcell W)) w : sim_heap eq (wfresh_loc g) g (∅, w) (g, w).
Proof.
  split; [|done]. split; [|done]. intros l. cbn. rewrite lookup_empty, fresh_above. constructor.
Qed.

(** Running a closure on a copy beside other streams is running it alone; the cells of the others stay. *)
Lemma beside evs (b : once W) g w h1 s1 h' r :
  run_builder b (g, w) (WSTemplate evs 0) = WDone h1 s1 -> CoTo h1 s1 [] h' r ->
  GivesIn evs b w r (snd h') /\ forall k, (k < wfresh_loc g)%positive -> fst h' !! k = g !! k.
Proof.
  intros Eb Hc.
  pose proof (sim_run_builder eq (wfresh_loc g) g eq_refl b b (∅, w) (g, w) (WSTemplate evs 0) (WSTemplate evs 0)
    (alike_once b) (sim_start g w) (M_template _ _ _ _)) as H.
  rewrite Eb in H. inversion H as [| |h0 h0' s0 s0' Hh Hs E0 E0']; subst.
  destruct Hc as [n Hc]. pose proof (m_co _ _ _ _ _ (run_sim eq (wfresh_loc g) g eq_refl n) _ _ _ _ [] Hh Hs) as Hco.
  rewrite Hc in Hco. inversion Hco as [| |[k v] k' r0 r0' Hk Hr E1 E1']; subst.
  pose proof (proj2 Hk) as Hv. cbn in Hv. subst v. split.
  - exists n, k. unfold wtransform. rewrite <- E0. done.
  - intros l Hl. by apply (proj1 Hk).
Qed.
Lemma gives_beside evs (b : once W) g w r w' : GivesIn evs b w r w' -> exists h1 s1 k,
  run_builder b (g, w) (WSTemplate evs 0) = WDone h1 s1 /\ CoTo h1 s1 [] (k, w') r /\
  forall l, (l < wfresh_loc g)%positive -> k !! l = g !! l.
Proof.
  intros (n & h & E). unfold wtransform in E.
  pose proof (sim_run_builder eq (wfresh_loc g) g eq_refl b b (∅, w) (g, w) (WSTemplate evs 0) (WSTemplate evs 0)
    (alike_once b) (sim_start g w) (M_template _ _ _ _)) as H.
  destruct (run_builder b (∅, w) _) as [| |h1 s1]; cbn in E; try discriminate.
  inversion H as [| |h0 h0' s0 s0' Hh Hs E0 E0']; subst.
  pose proof (m_co _ _ _ _ _ (run_sim eq (wfresh_loc g) g eq_refl n) _ _ _ _ [] Hh Hs) as Hco.
  rewrite E in Hco. inversion Hco as [| |k [k' v] r0 r0' Hk Hr E1 E1']; subst.
  pose proof (proj2 Hk) as Hv. cbn in Hv. subst v. exists h0', s0', k'.
  split_and!; [done|by exists n|]. intros l Hl. by apply (proj1 Hk).
Qed.


(** ** What was collected before *)

Lemma followed_app a b r : followed (a ++ b) r = followed a (followed b r).
Proof. destruct r; cbn; [by rewrite app_assoc|done]. Qed.
Lemma co_acc n a : forall h s acc h' r, wco (wrun n) h s acc = WDone h' r ->
  wco (wrun n) h s (a ++ acc) = WDone h' (followed a r).
Proof.
  induction n as [|n IH]; intros h s acc h' r H; [discriminate|].
  apply co_inv in H as (h1 & s1 & r1 & E & H). cbn [wrun wco]. unfold wco_body. rewrite E. cbn.
  destruct r1 as [[ev|]|e]; cbn in H.
  - rewrite <- app_assoc. by apply IH.
  - by destruct H as [-> ->].
  - by destruct H as [-> ->].
Qed.
Lemma co_acc_inv n a : forall h s acc h' r, wco (wrun n) h s (a ++ acc) = WDone h' r ->
  exists r0, r = followed a r0 /\ wco (wrun n) h s acc = WDone h' r0.
Proof.
  induction n as [|n IH]; intros h s acc h' r H; [discriminate|].
  apply co_inv in H as (h1 & s1 & r1 & E & H). cbn [wrun wco]. unfold wco_body. rewrite E. cbn.
  destruct r1 as [[ev|]|e]; cbn in H.
  - rewrite <- app_assoc in H. by apply IH.
  - destruct H as [-> ->]. by exists (inl acc).
  - destruct H as [-> ->]. by exists (inr e).
Qed.
Lemma co_from h s acc h' r : CoTo h s [] h' r -> CoTo h s acc h' (followed acc r).
Proof. intros [n H]. exists n. rewrite <- (app_nil_r acc) at 1. by apply co_acc. Qed.
Lemma co_from_inv h s acc h' r : CoTo h s acc h' r -> exists r0, r = followed acc r0 /\ CoTo h s [] h' r0.
Proof.
  intros [n H]. rewrite <- (app_nil_r acc) in H. apply co_acc_inv in H as (r0 & -> & H). exists r0. split; [done|by exists n].
Qed.

(** ** [repeat] *)

Scheme repeats_ind := Minimality for Repeats Sort Prop
  with copies_ind := Minimality for Copies Sort Prop.
Combined Scheme repeats_copies_ind from repeats_ind, copies_ind.

Definition from (it : iterator W) (k : nat) (i : items W) : Prop :=
  exists it', i = Items None it' /\ forall n, it' n = it (k + n).
Definition keeps (g g' : gmap loc (wcell W)) : Prop :=
  (wfresh_loc g <= wfresh_loc g')%positive /\ forall k, (k < wfresh_loc g)%positive -> g' !! k = g !! k.
Lemma keeps_refl g : keeps g g.
Proof. by split. Qed.
Lemma keeps_trans g1 g2 g3 : keeps g1 g2 -> keeps g2 g3 -> keeps g1 g3.
Proof. intros [H1 H2] [H3 H4]. split; [lia|]. intros k Hk. rewrite H4 by lia. by apply H2. Qed.
Lemma keeps_intro g g' : (forall k, (k < wfresh_loc g)%positive -> g' !! k = g !! k) -> keeps g g'.
Proof.
  intros H. split; [|done]. unfold wfresh_loc in *. destruct (fold_locs g) as [H1 [E|(l & Hl & E)]]; [lia|].
  destruct (fold_locs g') as [H1' _]. rewrite E. specialize (H l ltac:(rewrite E; lia)).
  rewrite <- H in Hl. apply H1' in Hl. lia.
Qed.

Definition tail (i : items W) : items W := match i with Items _ it' => Items None (fun n => it' (S n)) end.
Lemma from_tail it k i : from it k i -> from it (S k) (tail i).
Proof.
  intros (it' & -> & Hit). exists (fun n => it' (S n)). split; [done|]. intros n. rewrite Hit. f_equal. lia.
Qed.
(** [Handled]: what is left of [repeat] once an item was asked for *)
Definition Handled t (it : iterator W) k (item : option (once W)) w res w' : Prop :=
  forall g i acc, from it (S k) i -> exists g',
  (match item with
   | None => g' = g /\ res = inl [] /\ w' = w
   | Some b => exists h1 s1, run_builder b (g, w) (WSTemplate t 0) = WDone h1 s1 /\
        CoTo h1 (WSRepeat (Some (WREmit t s1 i))) acc (g', w') (followed acc res)
   end) /\ keeps g g'.

Lemma next_none t it k i g w w1 : from it k i -> it k w = (w1, None) ->
  NeTo (g, w) (WSRepeat (Some (WRNext t i))) (g, w1) (WSRepeat None, inl None).
Proof.
  intros (it' & -> & Hit) E. exists 1. cbn. rewrite Hit, Nat.add_0_r, E. done.
Qed.
Lemma next_some t it k i g w w1 b h1 s1 : from it k i -> it k w = (w1, Some b) ->
  run_builder b (g, w1) (WSTemplate t 0) = WDone h1 s1 ->
  NeTo (g, w) (WSRepeat (Some (WRNext t i))) h1 (WSRepeat (Some (WREmit t s1 (tail i))), inl (Some Noop)).
Proof.
  intros (it' & -> & Hit) E Eb. exists 1. cbn. rewrite Hit, Nat.add_0_r, E. cbn. rewrite Eb. done.
Qed.

Lemma repeats_run t it :
  (forall k w res w', Repeats t it k w res w' -> forall g i acc, from it k i ->
     exists g', CoTo (g, w) (WSRepeat (Some (WRNext t i))) acc (g', w') (followed acc res) /\ keeps g g') /\
  (forall k item w res w', Copies t it k item w res w' -> Handled t it k item w res w').
Proof.
  apply repeats_copies_ind.
  - intros k w w1 item res w' E _ IH g i acc Hi.
    destruct (IH g (tail i) acc (from_tail _ _ _ Hi)) as (g' & H & Hk). exists g'. split; [|done].
    destruct item as [b|].
    + destruct H as (h1 & s1 & Eb & Hc). eapply co_noop; [|exact Hc]. by eapply next_some.
    + destruct H as (-> & -> & ->). pose proof (next_none t it k i g w w1 Hi E) as Hn.
      apply sk_event in Hn; [|done]. apply (co_intro 0 _ _ _ _ _ _ _ _ Hn). cbn. by rewrite app_nil_r.
  - intros k w g i acc Hi. exists g. split; [done|apply keeps_refl].
  - intros k b w r w1 res w' Hg _ IH g i acc Hi.
    destruct (gives_beside t b g w _ _ Hg) as (h1 & s1 & g1 & Eb & Hc & Hk).
    apply keeps_intro in Hk.
    destruct (IH g1 i (acc ++ r) Hi) as (g' & Hc' & Hk').
    exists g'. split; [|by eapply keeps_trans].
    exists h1, s1. split; [done|]. apply (co_from _ _ acc) in Hc. cbn in Hc. destruct Hc as [n Hc].
    rewrite <- followed_app. exact (pass_co _ _ _ _ (passes_repeat t i) _ _ _ _ _ Hc _ _ Hc').
  - intros k b w e w' Hg g i acc Hi.
    destruct (gives_beside t b g w _ _ Hg) as (h1 & s1 & g1 & Eb & Hc & Hk).
    apply keeps_intro in Hk. exists g1. split; [|done]. exists h1, s1. split; [done|].
    apply (co_from _ _ acc) in Hc. destruct Hc as [n Hc].
    exact (pass_co _ _ _ _ (passes_repeat t i) _ _ _ _ _ Hc).
Qed.

(** ... and back *)
Lemma run_repeats t it : forall n m k g w i acc x res, from it k i ->
  fin n m (g, w) (WSRepeat (Some (WRNext t i))) acc x res ->
  exists r0, res = followed acc r0 /\ Repeats t it k w r0 (snd x).
Proof.
  induction n as [n IHn] using lt_wf_ind. induction m as [m IHm] using lt_wf_ind.
  intros k g w i acc x res Hi (h0 & s0 & r0 & H1 & H2).
  destruct m as [|[|m]]; [discriminate|discriminate|].
  apply sk_inv in H1 as (h1 & s1 & r1 & H1 & H3). destruct (it k w) as [w1 [b|]] eqn:E.
  - destruct Hi as (it' & -> & Hit). pose proof (Hit 0) as Hit0. rewrite Nat.add_0_r in Hit0.
    cbn [wrun wne wne_body next_item snd] in H1. rewrite Hit0, E in H1. cbn [fst] in H1.
    destruct (run_builder b (g, w1) (WSTemplate t 0)) as [| |h2 s2] eqn:Eb; try discriminate.
    cbn in H1. injection H1 as <- <- <-. cbn in H3.
    assert (fin n (S m) h2 (WSRepeat (Some (WREmit t s2 (Items None (fun n => it' (S n)))))) acc x res) as Hf
      by (by exists h0, s0, r0).
    destruct (pass_fin _ _ _ (passes_repeat t _) _ _ _ _ _ _ _ Hf) as (h3 & r3 & Hc & H4).
    apply co_from_inv in Hc as (r4 & -> & Hc).
    destruct (beside t b g w1 _ _ _ _ Eb Hc) as [Hg _].
    destruct r4 as [l|e]; cbn in H4.
    + destruct H4 as (n' & m' & Hb & H4). destruct h3 as [g3 w3]. cbn in Hg.
      assert (from it (S k) (Items None (fun n => it' (S n)))) as Hi'.
      { apply (from_tail it k (Items None it')). by exists it'. }
      assert (exists r0, res = followed (acc ++ l) r0 /\ Repeats t it (S k) w3 r0 (snd x)) as (r5 & -> & Hr).
      { destruct Hb as [Hb|[-> Hb]]; [exact (IHn n' Hb m' _ _ _ _ _ _ _ Hi' H4)|exact (IHm m' ltac:(lia) _ _ _ _ _ _ _ Hi' H4)]. }
      exists (followed l r5). split; [by rewrite followed_app|]. econstructor; [exact E|]. by econstructor.
    + destruct H4 as [-> ->]. exists (inr e). split; [done|]. econstructor; [exact E|]. by constructor.
  - destruct (next_none t it k i g w w1 Hi E) as [p Hp].
    apply (ne_more _ (p + S m)) in H1; [|lia]. apply (ne_more _ (p + S m)) in Hp; [|lia].
    rewrite H1 in Hp. injection Hp as -> -> ->. cbn in H3. destruct H3 as [-> [= -> ->]].
    cbn in H2. destruct H2 as [-> ->]. exists (inl []). split; [by cbn; rewrite app_nil_r|].
    econstructor; [exact E|constructor].
Qed.

(** ** Whole programs *)

Lemma gives_run evs (p : wpipeline W) (f : wstrm W -> wstrm W) o w r w' :
  (forall h s, wbuild_op o h s = WDone h (f s)) ->
  (GivesIn evs (calls (p ++ [o])) w r w' <->
   exists h s g', wbuild p (∅, w) (WSTemplate evs 0) = WDone h s /\ CoTo h (f s) [] (g', w') r).
Proof.
  intros Ho. unfold GivesIn, wtransform, run_builder, calls. cbn [fst snd].
  assert (forall p h s, wbuild (p ++ [o]) h s = wbind (wbuild p h s) (fun h s => WDone h (f s))) as Hb.
  { intros q. induction q as [|a q IH]; intros h s; cbn; [by rewrite Ho|]. destruct (wbuild_op a h s); cbn; auto. }
  rewrite Hb. split.
  - intros (n & h' & E). destruct (wbuild p (∅, w) _) as [| |h s]; cbn in E; try discriminate.
    exists h, s, h'. split; [done|by exists n].
  - intros (h & s & h' & E & n & Hc). exists n, h'. by rewrite E.
Qed.
Lemma gives_run_plain evs (p : wpipeline W) w r w' : GivesIn evs (calls p) w r w' <->
  exists h s g', wbuild p (∅, w) (WSTemplate evs 0) = WDone h s /\ CoTo h s [] (g', w') r.
Proof.
  unfold GivesIn, wtransform, run_builder, calls. cbn [fst snd]. split.
  - intros (n & h' & E). destruct (wbuild p (∅, w) _) as [| |h s]; cbn in E; try discriminate.
    exists h, s, h'. split; [done|by exists n].
  - intros (h & s & h' & E & n & Hc). exists n, h'. by rewrite E.
Qed.

Lemma collect_ok h s i t h' acc x res : CoTo h s [] h' (inl t) ->
  CoTo h' (WSRepeat (Some (WRNext t i))) acc x res -> CoTo h (WSRepeat (Some (WRCollect s i))) acc x res.
Proof. intros [n E]. apply co_noop. exists (S n). cbn. by rewrite E. Qed.
Lemma collect_err h s i e h' acc : CoTo h s [] h' (inr e) ->
  CoTo h (WSRepeat (Some (WRCollect s i))) acc h' (inr e).
Proof.
  intros [n E]. assert (NeTo h (WSRepeat (Some (WRCollect s i))) h' (WSRepeat None, inr e)) as H.
  { exists (S n). cbn. by rewrite E. }
  apply sk_event in H; [|done]. by apply (co_intro 0 _ _ _ _ _ _ _ _ H).
Qed.
Lemma collect_inv n m h s i acc x res : fin n m h (WSRepeat (Some (WRCollect s i))) acc x res ->
  exists h' r, CoTo h s [] h' r /\
  match r with
  | inl t => exists n' m', before n' m' n m /\ fin n' m' h' (WSRepeat (Some (WRNext t i))) acc x res
  | inr e => x = h' /\ res = inr e
  end.
Proof.
  intros (h0 & s0 & r0 & H1 & H2). destruct m as [|[|m]]; [discriminate|discriminate|].
  apply sk_inv in H1 as (h1 & s1 & r1 & H1 & H3). cbn [wrun wne wne_body] in H1.
  destruct (wco (wrun m) h s []) as [| |h2 [t|e]] eqn:E; cbn in H1; try discriminate; injection H1 as <- <- <-.
  - exists h2, (inl t). split; [by exists m|]. exists n, (S m). split; [right; lia|]. by exists h0, s0, r0.
  - cbn in H3. destruct H3 as [-> [= -> ->]]. cbn in H2. destruct H2 as [-> ->].
    exists h2, (inr e). split; [by exists m|done].
Qed.
Lemma from_0 it : from it 0 (plain it).
Proof. by eexists. Qed.

Lemma repeat_state evs (p : wpipeline W) it w r w' :
  GivesIn evs (calls (p ++ [WRepeat it])) w r w' <->
  (exists t w1, GivesIn evs (calls p) w (inl t) w1 /\ Repeats t it 0 w1 r w') \/
  (exists e, r = inr e /\ GivesIn evs (calls p) w (inr e) w').
Proof.
  rewrite (gives_run _ _ (fun s => WSRepeat (Some (WRCollect s (plain it))))) by done. split.
  - intros (h & s & h' & E & [|n] & Hc); [discriminate|]. apply co_inv in Hc.
    destruct (collect_inv _ _ _ _ _ _ _ _ Hc) as ([h1 w1] & [t|e] & H1 & H2).
    + left. exists t, w1. split; [apply gives_run_plain; eauto|].
      destruct H2 as (n' & m' & _ & H2). destruct (run_repeats t it _ _ _ _ _ _ _ _ _ (from_0 it) H2) as (r0 & -> & Hr).
      by destruct r0.
    + destruct H2 as [[= <- <-] ->]. right. exists e. split; [done|]. apply gives_run_plain; eauto.
  - intros [(t & w1 & H1 & H2)|(e & -> & H1)]; apply gives_run_plain in H1 as (h & s & h1 & E & Hc).
    + destruct (proj1 (repeats_run t it) _ _ _ _ H2 h1 (plain it) [] (from_0 it)) as (h' & Hc' & _).
      exists h, s, h'. split; [done|]. eapply collect_ok; [exact Hc|]. by destruct r.
    + exists h, s, h1. split; [done|]. by apply collect_err.
Qed.

(** ** Building does not look at the state *)

Definition in_world {A} (w : W) (o : wout W A) : wout W A :=
  match o with WDone h a => WDone (fst h, w) a | o => o end.
Lemma in_world_bind {A B} w (o : wout W A) (k : wheap W -> A -> wout W B) :
  (forall h a, k (fst h, w) a = in_world w (k h a)) ->
  wbind (in_world w o) k = in_world w (wbind o k).
Proof. intros Hk. destruct o; cbn; auto. Qed.
Lemma build_op_world : forall (o : wop W) h s w, wbuild_op o (fst h, w) s = in_world w (wbuild_op o h s).
Proof.
  fix IH 1. intros o h s w.
  assert (forall (p : wpipeline W) h s, wbuild_fix p (fst h, w) s = in_world w (wbuild_fix p h s)) as IHp.
  { fix IHp 1. intros [|a p] k t; cbn; [done|]. rewrite (IH a k t w). apply in_world_bind. intros. by rewrite IHp. }
  destruct o; cbn [wbuild_op]; fold (@wbuild_fix W); try done.
  all: try (apply IHp). all: try (rewrite IHp; by apply in_world_bind).
  all: unfold wattr_new; repeat match goal with |- context [match ?x with _ => _ end] => destruct x; try done end.
Qed.
Lemma build_world (p : wpipeline W) : forall h s w, wbuild p (fst h, w) s = in_world w (wbuild p h s).
Proof.
  induction p as [|o p IH]; intros h s w; cbn; [done|]. rewrite build_op_world. apply in_world_bind. intros. apply IH.
Qed.
Lemma build_keeps_world (p : wpipeline W) g w s h s' : wbuild p (g, w) s = WDone h s' -> snd h = w.
Proof.
  intros E. pose proof (build_world p (g, w) s w) as H. cbn [fst] in H. rewrite E in H. cbn in H.
  destruct h as [g' w']. cbn in *. by injection H.
Qed.

(** ** A stream that is passed on to its end *)

Record Through (E : wstrm W -> wstrm W) (D : wstrm W) : Prop :=
  { t_step : forall n h s h' s' r, wne (wrun n) h s = WDone h' (s', r) ->
      wne (wrun (S n)) h (E s) = WDone h' (match r with inl (Some _) => E s' | _ => D end, r);
    t_inv : forall n h s h' x, wne (wrun (S n)) h (E s) = WDone h' x ->
      exists s' r, wne (wrun n) h s = WDone h' (s', r) }.
Lemma through_sk E D : Through E D -> forall n h s h' s' r, wsk (wrun n) h s = WDone h' (s', r) ->
  SkTo h (E s) h' (match r with inl (Some _) => E s' | _ => D end, r).
Proof.
  intros HT. induction n as [|n IH]; intros h s h' s' r H; [discriminate|].
  apply sk_inv in H as (h1 & s1 & r1 & H1 & H2). pose proof (t_step _ _ HT _ _ _ _ _ _ H1) as H3.
  destruct (noop r1) eqn:Er.
  - assert (r1 = inl (Some Noop)) as -> by (destruct r1 as [[[]|]|]; done).
    eapply sk_noop; [eexists; exact H3|]. by apply IH.
  - destruct H2 as [-> [= -> ->]]. apply sk_event; [eexists; exact H3|done].
Qed.
Lemma through_sk_inv E D : Through E D -> forall n h s h' y r, wsk (wrun n) h (E s) = WDone h' (y, r) ->
  exists s', SkTo h s h' (s', r) /\ y = match r with inl (Some _) => E s' | _ => D end.
Proof.
  intros HT. induction n as [|n IH]; intros h s h' y r H; [discriminate|].
  apply sk_inv in H as (h0 & s0 & r0 & H1 & H2). destruct n as [|n]; [discriminate|].
  destruct (t_inv _ _ HT _ _ _ _ _ H1) as (s1 & r1 & H3). pose proof (t_step _ _ HT _ _ _ _ _ _ H3) as H4.
  rewrite H1 in H4. injection H4 as -> ->. destruct (noop r1) eqn:Er.
  - assert (r1 = inl (Some Noop)) as -> by (destruct r1 as [[[]|]|]; done).
    destruct (IH _ _ _ _ _ H2) as (s2 & H5 & ->). exists s2. split; [|done]. eapply sk_noop; [eexists; exact H3|done].
  - destruct H2 as [-> [= -> ->]]. exists s1. split; [|done]. apply sk_event; [eexists; exact H3|done].
Qed.
Lemma through_co E D : Through E D -> forall h s acc x res, CoTo h (E s) acc x res <-> CoTo h s acc x res.
Proof.
  intros HT. split; intros [n H]; revert h s acc H; induction n as [|n IH]; intros h s acc H; try discriminate;
    apply co_inv in H as (h1 & s1 & r1 & H1 & H2).
  - destruct (through_sk_inv _ _ HT _ _ _ _ _ _ H1) as (s2 & H3 & ->). destruct r1 as [[ev|]|e]; cbn in H2.
    + destruct (IH _ _ _ H2) as [m Hm]. by eapply co_intro.
    + by apply (co_intro 0 _ _ _ _ _ _ _ _ H3).
    + by apply (co_intro 0 _ _ _ _ _ _ _ _ H3).
  - pose proof (through_sk _ _ HT _ _ _ _ _ _ H1) as H3. destruct r1 as [[ev|]|e]; cbn in H2.
    + destruct (IH _ _ _ H2) as [m Hm]. by eapply co_intro.
    + by apply (co_intro 0 _ _ _ _ _ _ _ _ H3).
    + by apply (co_intro 0 _ _ _ _ _ _ _ _ H3).
Qed.
Ltac through := split; [intros n h s h' s' r H; cbn [wrun wne wne_body]; unfold wpassthrough, won_ok; rewrite H;
    by destruct r as [[]|]
  |intros n h s h' x; cbn [wrun wne wne_body]; unfold wpassthrough, won_ok;
   destruct (wne (wrun n) h s) as [| |h1 [s1 [[]|]]]; try discriminate; intros H; injection H as <- <-; eauto].
Lemma through_repeat : Through (fun s => WSRepeatOrElse (Some (WROERepeat s))) (WSRepeatOrElse None).
Proof. through. Qed.
Lemma through_fallback : Through (fun s => WSRepeatOrElse (Some (WROEFallback s))) (WSRepeatOrElse None).
Proof. through. Qed.

(** ** [repeat_or_else] *)

Lemma co_ne h s acc x res h1 s1 : NeTo h s h1 (s1, inl (Some Noop)) ->
  (CoTo h s acc x res <-> CoTo h1 s1 acc x res).
Proof.
  intros Hn. split; [|by apply co_noop]. intros ([|n] & H); [discriminate|].
  apply co_inv in H as (h2 & s2 & r2 & H1 & H2). destruct n as [|n]; [discriminate|].
  apply sk_inv in H1 as (h3 & s3 & r3 & H3 & H4). destruct Hn as [m Hm].
  apply (ne_more _ (n + m)) in H3; [|lia]. apply (ne_more _ (n + m)) in Hm; [|lia]. rewrite H3 in Hm.
  injection Hm as -> -> ->. cbn in H4. eapply co_intro; [eexists; exact H4|exact H2].
Qed.
Lemma co_after h s acc x res h1 s1 : CoTo h s acc x res -> NeTo h s h1 (s1, inl (Some Noop)) -> CoTo h1 s1 acc x res.
Proof. intros H Hn. by apply (co_ne _ _ _ _ _ _ _ Hn). Qed.
Lemma co_split h s acc x res : CoTo h s acc x res -> exists n m, fin n m h s acc x res.
Proof. intros ([|n] & H); [discriminate|]. exists n, n. by apply co_inv in H. Qed.

Lemma run_copies t it k g w i acc x res b h2 s2 :
  from it (S k) i -> run_builder b (g, w) (WSTemplate t 0) = WDone h2 s2 ->
  CoTo h2 (WSRepeat (Some (WREmit t s2 i))) acc x res ->
  exists r0, res = followed acc r0 /\ Copies t it k (Some b) w r0 (snd x).
Proof.
  intros Hi Eb Hf. apply co_split in Hf as (n & m & Hf).
  destruct (pass_fin _ _ _ (passes_repeat t _) _ _ _ _ _ _ _ Hf) as (h3 & r3 & Hc & H4).
  apply co_from_inv in Hc as (r4 & -> & Hc). destruct (beside t b g w _ _ _ _ Eb Hc) as [Hg _].
  destruct r4 as [l|e]; cbn in H4.
  - destruct H4 as (n' & m' & _ & H4). destruct h3 as [g3 w3]. cbn in Hg.
    destruct (run_repeats t it _ _ _ _ _ _ _ _ _ Hi H4) as (r5 & -> & Hr).
    exists (followed l r5). split; [by rewrite followed_app|]. by econstructor.
  - destruct H4 as [-> ->]. exists (inr e). split; [done|]. by constructor.
Qed.

Lemma gives_then evs (p : wpipeline W) b w w1 r w' g s :
  wbuild p (∅, w) (WSTemplate evs 0) = WDone (g, w) s ->
  (GivesIn evs (calls_then p b) w1 r w' <->
   exists h1 s1 g', run_builder b (g, w1) s = WDone h1 s1 /\ CoTo h1 s1 [] (g', w') r).
Proof.
  intros E. pose proof (build_world p (∅, w) (WSTemplate evs 0)) as Hb. cbn [fst] in Hb.
  unfold GivesIn, wtransform, run_builder, calls_then. cbn [fst snd]. destruct (b w1) as [w2 q].
  assert (wbuild (p ++ q) (∅, w2) (WSTemplate evs 0) = wbuild q (g, w2) s) as ->.
  { assert (forall p h s, wbuild (p ++ q) h s = wbind (wbuild p h s) (fun h s => wbuild q h s)) as Ha.
    { intros p0. induction p0 as [|a p0 IH]; intros h0 s0; cbn; [done|]. destruct (wbuild_op a h0 s0); cbn; auto. }
    rewrite Ha, Hb, E. done. }
  split.
  - intros (n & h' & E'). destruct (wbuild q (g, w2) s) as [| |h1 s1]; cbn in E'; try discriminate.
    exists h1, s1, h'. split; [done|by exists n].
  - intros (h1 & s1 & h' & E' & n & Hc). exists n, h'. by rewrite E'.
Qed.

Lemma repeat_or_else_state evs (p : wpipeline W) it b w r w' :
  GivesIn evs (calls (p ++ [WRepeatOrElse it b])) w r w' <->
  (exists w1, it 0 w = (w1, None) /\ GivesIn evs (calls_then p b) w1 r w') \/
  (exists w1 b0, it 0 w = (w1, Some b0) /\
     ((exists t w2, GivesIn evs (calls p) w1 (inl t) w2 /\ Copies t it 0 (Some b0) w2 r w') \/
      exists e, r = inr e /\ GivesIn evs (calls p) w1 (inr e) w')).
Proof.
  rewrite (gives_run _ _ (fun s => WSRepeatOrElse (Some (WROEStart false s it b)))) by done.
  pose proof (build_world p (∅, w) (WSTemplate evs 0)) as Hb. cbn [fst] in Hb.
  assert (forall w1 r w', GivesIn evs (calls p) w1 r w' <-> exists g s g',
    wbuild p (∅, w) (WSTemplate evs 0) = WDone (g, w) s /\ CoTo (g, w1) s [] (g', w') r) as Hp.
  { intros w1 r0 w0. rewrite gives_run_plain, Hb. split.
    - intros (h & s & g' & E & Hc). destruct (wbuild p (∅, w) _) as [| |h2 s2] eqn:E2; try discriminate.
      pose proof (build_keeps_world _ _ _ _ _ _ E2) as Hw. destruct h2 as [g2 w2]. cbn in *. subst w2.
      injection E as <- <-. by exists g2, s2, g'.
    - intros (g & s & g' & -> & Hc). by exists (g, w1), s, g'. }
  assert (forall g w0 s w1 acc x res, it 0 w0 = (w1, None) ->
    (CoTo (g, w0) (WSRepeatOrElse (Some (WROEStart false s it b))) acc x res <->
     exists h1 s1, run_builder b (g, w1) s = WDone h1 s1 /\ CoTo h1 s1 acc x res)) as Hnone.
  { intros g w0 s w1 acc x res E. split.
    - intros H. pose proof H as ([|[|[|n]]] & H0); try discriminate.
      apply co_inv in H0 as (? & ? & ? & H1 & _). apply sk_inv in H1 as (? & ? & ? & H1 & _).
      cbn in H1. rewrite E in H1. destruct (run_builder b (g, w1) s) as [| |h1 s1] eqn:Eb; cbn in H1; try discriminate.
      exists h1, s1. split; [done|]. apply (through_co _ _ through_fallback). apply (co_after _ _ _ _ _ _ _ H).
      exists 1. cbn. by rewrite E, Eb.
    - intros (h1 & s1 & Eb & H). apply (through_co _ _ through_fallback) in H. eapply co_noop; [|exact H].
      exists 1. cbn. by rewrite E, Eb. }
  assert (forall g w0 s w1 b0 acc x res, it 0 w0 = (w1, Some b0) ->
    (CoTo (g, w0) (WSRepeatOrElse (Some (WROEStart false s it b))) acc x res <->
     CoTo (g, w1) (WSRepeat (Some (WRCollect s (Items (Some b0) (fun n => it (S n)))))) acc x res)) as Hsome.
  { intros g w0 s w1 b0 acc x res E. rewrite <- (through_co _ _ through_repeat (g, w1) (WSRepeat _)). refine (co_ne _ _ _ _ _ _ _ _). exists 1. cbn. by rewrite E. }
  assert (from it 1 (Items None (fun n => it (S n)))) as Hfrom by by eexists.
  split.
  - intros (h & s & g' & E & Hc). pose proof (build_keeps_world _ _ _ _ _ _ E) as Hw. destruct h as [g w0]. cbn in Hw. subst w0.
    destruct (it 0 w) as [w1 [b0|]] eqn:Ei.
    + right. exists w1, b0. split; [done|]. apply (Hsome _ _ _ _ _ _ _ _ Ei) in Hc as ([|n] & Hc); [discriminate|].
      apply co_inv in Hc. destruct (collect_inv _ _ _ _ _ _ _ _ Hc) as ([h1 w2] & [t|e] & H1 & H2).
      * left. exists t, w2. split; [apply Hp; eauto|]. destruct H2 as (n' & m' & _ & H2).
        assert (exists h2 s2, run_builder b0 (h1, w2) (WSTemplate t 0) = WDone h2 s2) as (h2 & s2 & Eb).
        { destruct H2 as (? & ? & ? & H2 & _). destruct m' as [|[|m']]; [discriminate| |].
          { apply sk_inv in H2 as (? & ? & ? & H2 & _). discriminate. }
          apply sk_inv in H2 as (? & ? & ? & H2 & _). cbn in H2.
          destruct (run_builder b0 (h1, w2) (WSTemplate t 0)) as [| |h2 s2]; try discriminate. eauto. }
        assert (CoTo (h1, w2) (WSRepeat (Some (WRNext t (Items (Some b0) (fun n => it (S n)))))) [] (g', w') r) as H3.
        { destruct H2 as (? & ? & ? & H2 & H3). eapply co_intro; [eexists; exact H2|exact H3]. }
        eapply co_after in H3; [|exists 1; cbn; by rewrite Eb].
        destruct (run_copies _ _ _ _ _ _ _ _ _ _ _ _ Hfrom Eb H3) as (r0 & -> & Hr). by destruct r0.
      * destruct H2 as [[= <- <-] ->]. right. exists e. split; [done|]. apply Hp; eauto.
    + left. exists w1. split; [done|]. apply (gives_then _ _ _ _ _ _ _ _ _ E).
      apply (Hnone _ _ _ _ _ _ _ Ei) in Hc as (h1 & s1 & H1 & H2). eauto.
  - intros [(w1 & Ei & H)|(w1 & b0 & Ei & [(t & w2 & H1 & H2)|(e & -> & H1)])].
    + destruct (wbuild p (∅, w) (WSTemplate evs 0)) as [| |h s] eqn:E.
      1,2: exfalso; destruct H as (n & h' & H); unfold wtransform, run_builder, calls_then in H; cbn [fst snd] in H;
        destruct (b w1) as [w2 q];
        assert (forall p h s, wbuild (p ++ q) h s = wbind (wbuild p h s) (fun h s => wbuild q h s)) as Ha
          by (intros p0; induction p0 as [|a p0 IH]; intros h0 s0; cbn; [done|]; destruct (wbuild_op a h0 s0); cbn; auto);
        rewrite Ha, Hb in H; discriminate.
      pose proof (build_keeps_world _ _ _ _ _ _ E) as Hw. destruct h as [g w0]. cbn in Hw. subst w0.
      apply (gives_then _ _ _ _ _ _ _ _ _ E) in H as (h1 & s1 & g' & H1 & H2).
      exists (g, w), s, g'. split; [done|]. apply (Hnone _ _ _ _ _ _ _ Ei). eauto.
    + apply Hp in H1 as (g & s & g1 & E & H1).
      destruct (proj2 (repeats_run t it) _ _ _ _ _ H2 g1 (Items None (fun n => it (S n))) [] Hfrom) as (g' & H3 & _).
      exists (g, w), s, g'. split; [done|]. apply (Hsome _ _ _ _ _ _ _ _ Ei). eapply collect_ok; [exact H1|].
      destruct H3 as (h2 & s2 & Eb & H3). eapply co_noop; [exists 1; cbn; by rewrite Eb|]. by destruct r.
    + apply Hp in H1 as (g & s & g1 & E & H1). exists (g, w), s, g1. split; [done|].
      apply (Hsome _ _ _ _ _ _ _ _ Ei). by apply collect_err.
Qed.

(** ** [apply_as_template] *)

Lemma nth_error_is (l : list event) : forall i : nat, nth_error l i = l !! i.
Proof. induction l as [|a l IH]; intros [|i]; cbn; auto. Qed.
Lemma applied_run h evs (i : nat) acc : CoTo h (WSTemplateApply (Some (WTAEmit evs i))) acc h (inl (acc ++ strip_noops (drop i evs))).
Proof.
  remember (length evs - i) as d eqn:Hd. revert i acc Hd. induction d as [|d IH]; intros i acc Hd.
  - rewrite drop_ge by lia. assert (nth_error evs i = None) as Ei by (apply nth_error_None; lia).
    assert (NeTo h (WSTemplateApply (Some (WTAEmit evs i))) h (WSTemplateApply None, inl None)) as H.
    { exists 2. cbn. by rewrite Ei. }
    apply sk_event in H; [|done]. apply (co_intro 0 _ _ _ _ _ _ _ _ H). cbn. by rewrite app_nil_r.
  - destruct (lookup_lt_is_Some_2 evs i) as [ev Ei0]; [lia|]. pose proof Ei0 as Ei. rewrite <- nth_error_is in Ei.
    assert (NeTo h (WSTemplateApply (Some (WTAEmit evs i))) h (WSTemplateApply (Some (WTAEmit evs (S i))), inl (Some ev))) as H.
    { exists 2. cbn. by rewrite Ei. }
    rewrite (drop_S _ _ _ Ei0). destruct (noop (inl (Some ev))) eqn:En.
    + destruct ev; try discriminate. eapply co_noop; [exact H|]. apply IH. lia.
    + apply sk_event in H; [|done]. destruct (IH (S i) (acc ++ [ev])) as [m Hm]; [lia|].
      apply (co_intro m _ _ _ _ _ _ _ _ H). cbn [go_on]. rewrite Hm. f_equal.
      rewrite <- app_assoc. by destruct ev.
Qed.

Lemma apply_state evs (p : wpipeline W) f w r w' :
  GivesIn evs (calls (p ++ [WApplyAsTemplate f])) w r w' <->
  (exists t w1 res, GivesIn evs (calls p) w (inl t) w1 /\ f w1 t = (w', res) /\ r = applied res) \/
  (exists e, r = inr e /\ GivesIn evs (calls p) w (inr e) w').
Proof.
  rewrite (gives_run _ _ (fun s => WSTemplateApply (Some (WTACollect s f)))) by done.
  assert (forall h s g1 w1 t, CoTo h s [] (g1, w1) (inl t) ->
    CoTo h (WSTemplateApply (Some (WTACollect s f))) [] (g1, fst (f w1 t)) (applied (snd (f w1 t)))) as Hok.
  { intros h s h1 w1 t [n Hc]. destruct (f w1 t) as [w2 [a|e]] eqn:Ef; cbn.
    - eapply co_noop; [exists (S n); cbn; rewrite Hc; cbn; by rewrite Ef|]. apply applied_run.
    - assert (NeTo h (WSTemplateApply (Some (WTACollect s f))) (h1, w2) (WSTemplateApply None, inr e)) as H.
      { exists (S n). cbn. rewrite Hc. cbn. by rewrite Ef. }
      apply sk_event in H; [|done]. by apply (co_intro 0 _ _ _ _ _ _ _ _ H). }
  assert (forall h s x e, CoTo h s [] x (inr e) -> CoTo h (WSTemplateApply (Some (WTACollect s f))) [] x (inr e)) as Herr.
  { intros h s x e [n Hc].
    assert (NeTo h (WSTemplateApply (Some (WTACollect s f))) x (WSTemplateApply None, inr e)) as H.
    { exists (S n). cbn. by rewrite Hc. }
    apply sk_event in H; [|done]. by apply (co_intro 0 _ _ _ _ _ _ _ _ H). }
  assert (forall h s acc x res x' res', CoTo h s acc x res -> CoTo h s acc x' res' -> x = x' /\ res = res') as Hdet.
  { intros h s acc x res x' res' [n H1] [m H2]. apply (co_more _ (n + m)) in H1; [|lia]. apply (co_more _ (n + m)) in H2; [|lia].
    rewrite H1 in H2. by injection H2. }
  split.
  - intros (h & s & g' & E & Hc). pose proof Hc as ([|[|[|n]]] & H0); try discriminate.
    apply co_inv in H0 as (? & ? & ? & H1 & _). apply sk_inv in H1 as (? & ? & ? & H1 & _). cbn [wrun wne wne_body] in H1.
    destruct (wco (wrun n) h s []) as [| |[h1 w1] [t|e]] eqn:E1; try discriminate.
    + destruct (Hdet _ _ _ _ _ _ _ Hc (Hok _ _ _ _ _ (ex_intro _ _ E1))) as [[= -> ->] ->].
      left. exists t, w1, (snd (f w1 t)). split_and!; [|by destruct (f w1 t)|done]. apply gives_run_plain.
      exists h, s, h1. split; [done|by exists n].
    + destruct (Hdet _ _ _ _ _ _ _ Hc (Herr _ _ _ _ (ex_intro _ _ E1))) as [[= -> ->] ->].
      right. exists e. split; [done|]. apply gives_run_plain. exists h, s, h1. split; [done|by exists n].
  - intros [(t & w1 & res & H1 & H2 & ->)|(e & -> & H1)]; apply gives_run_plain in H1 as (h & s & h1 & E & Hc).
    + exists h, s, h1. split; [done|]. pose proof (Hok _ _ _ _ _ Hc) as H. by rewrite H2 in H.
    + exists h, s, h1. split; [done|]. by apply Herr.
Qed.
End Repeat.
