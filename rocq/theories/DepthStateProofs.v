(** Proofs for C78: the depth of calls when closures have state. *)
From Coq Require Import String List Lia.
From stdpp Require Import gmap.
From Verif Require Import Text Event Input Parse Selector Machine MachineState.
From Verif Require Import SpecDepth SpecState SpecStop SpecMemoryState DepthState StopProofs StateProofs4.
Local Open Scope nat_scope.

(** The cost of a call, see [grows_build]. *)
Notation K := 12.

Section World.
Context {W : Type}.

Definition OkOnce (b : once W) (q : nat) : Prop := forall w, WDepth (snd (b w)) q.
Definition OkIter (it : iterator W) (q : nat) : Prop :=
  forall k v v' b, it k v = (v', Some b) -> OkOnce b q.
Definition OkItems (i : items W) (q : nat) : Prop :=
  match i with Items peeked it => (forall b, peeked = Some b -> OkOnce b q) /\ OkIter it q end.

(** ** How much room a stream needs *)

(** [R] gives the room that the streams in the cells of the heap need. *)
Notation ranks := (gmap loc nat).

Inductive Nd (R : ranks) : wstrm W -> nat -> Prop :=
| Nd_template evs i d : 1 <= d -> Nd R (WSTemplate evs i) d
| Nd_user evs e d : 1 <= d -> Nd R (WSUser evs e) d
| Nd_live f d : 1 <= d -> Nd R (WSLive f) d
| Nd_content c d : 1 <= d -> Nd R (WSContent c) d
| Nd_shared l r d : R !! l = Some r -> S r <= d -> Nd R (WSShared l) d
| Nd_fallible_none d : 1 <= d -> Nd R (WSFallible None) d
| Nd_fallible_err e d : 1 <= d -> Nd R (WSFallible (Some (WFStart (inr e)))) d
| Nd_fallible_start s x d : Nd R s x -> S x <= d -> Nd R (WSFallible (Some (WFStart (inl s)))) d
| Nd_fallible_emit s x d : Nd R s x -> S x <= d -> Nd R (WSFallible (Some (WFEmit s))) d
| Nd_expand_none d : 1 <= d -> Nd R (WSExpand None) d
| Nd_expand_start s x d : Nd R s x -> 2 + x <= d -> Nd R (WSExpand (Some (WXStart s))) d
| Nd_expand_emit s x d : Nd R s x -> S x <= d -> Nd R (WSExpand (Some (WXEmitStream s))) d
| Nd_expand_close tag d : 1 <= d -> Nd R (WSExpand (Some (WXEmitClosingTag tag))) d
| Nd_peek s ev x d : Nd R s x -> 2 + x <= d -> Nd R (WSPeek s ev) d
| Nd_combine_none d : 1 <= d -> Nd R (WSCombine None) d
| Nd_combine_first s1 s2 x y d : Nd R s1 x -> Nd R s2 y -> 2 + x <= d -> 2 + y <= d ->
    Nd R (WSCombine (Some (WCmbFirst s1 s2))) d
| Nd_combine_second s2 y d : Nd R s2 y -> 2 + y <= d -> Nd R (WSCombine (Some (WCmbSecond s2))) d
| Nd_remove s x d : Nd R s x -> 2 + x <= d -> Nd R (WSRemove s) d
| Nd_single_none d : 1 <= d -> Nd R (WSSingle None) d
| Nd_single_start ev s x d : Nd R s x -> S x <= d -> Nd R (WSSingle (Some (WSEStart ev s))) d
| Nd_single_until tag s level x d : Nd R s x -> S x <= d ->
    Nd R (WSSingle (Some (WSEUntilClose tag s level))) d
| Nd_select_none l m b calls direct d : 1 <= d -> Nd R (WSSelect l m b calls direct None) d
| Nd_select_scan l r q m b calls direct level d : R !! l = Some r ->
    (forall k, OkOnce (b k) q) -> 3 + r + K * q <= d ->
    Nd R (WSSelect l m b calls direct (Some (WSelScanning level))) d
| Nd_select_active l r q m b calls direct level s x d : R !! l = Some r ->
    (forall k, OkOnce (b k) q) -> 3 + r + K * q <= d -> Nd R s x -> S x <= d ->
    Nd R (WSSelect l m b calls direct (Some (WSelActive level s))) d
| Nd_once_none l d : 1 <= d -> Nd R (WSSelectOnce l None) d
| Nd_once_scan l r q m p direct level d : R !! l = Some r -> OkOnce p q -> 3 + r + K * q <= d ->
    Nd R (WSSelectOnce l (Some (WSelOScanning m p direct level))) d
| Nd_once_active l r s x d : R !! l = Some r -> 2 + r <= d -> Nd R s x -> S x <= d ->
    Nd R (WSSelectOnce l (Some (WSelOActive s))) d
| Nd_once_pass l r d : R !! l = Some r -> 2 + r <= d -> Nd R (WSSelectOnce l (Some WSelOPassthrough)) d
| Nd_contents_none d : 1 <= d -> Nd R (WSSelectContent None) d
| Nd_contents_open s x b q d : Nd R s x -> NdB R b q -> 7 + x <= d -> 7 + x + q <= d -> S q <= d ->
    Nd R (WSSelectContent (Some (WSCOpen s b))) d
| Nd_contents_content l r s tag x d : R !! l = Some r -> 3 + r <= d -> Nd R s x -> S x <= d ->
    Nd R (WSSelectContent (Some (WSCContent l s tag))) d
| Nd_contents_close l r tag d : R !! l = Some r -> 3 + r <= d ->
    Nd R (WSSelectContent (Some (WSCClose l tag))) d
| Nd_current_none d : 1 <= d -> Nd R (WSCurrentContent None) d
| Nd_current tag l r level d : R !! l = Some r -> 2 + r <= d ->
    Nd R (WSCurrentContent (Some (tag, l, level))) d
| Nd_either first s x d : Nd R s x -> S x <= d -> Nd R (WSApplyEither first s) d
| Nd_apply_none d : 1 <= d -> Nd R (WSTemplateApply None) d
| Nd_apply_collect s f x d : Nd R s x -> 3 + x <= d -> Nd R (WSTemplateApply (Some (WTACollect s f))) d
| Nd_apply_emit evs i d : 2 <= d -> Nd R (WSTemplateApply (Some (WTAEmit evs i))) d
| Nd_repeat_none d : 1 <= d -> Nd R (WSRepeat None) d
| Nd_repeat_collect s bs x q d : Nd R s x -> OkItems bs q -> 3 + x <= d ->
    2 + K * q <= d -> Nd R (WSRepeat (Some (WRCollect s bs))) d
| Nd_repeat_next evs bs q d : OkItems bs q -> 2 + K * q <= d ->
    Nd R (WSRepeat (Some (WRNext evs bs))) d
| Nd_repeat_emit evs s bs x q d : Nd R s x -> OkItems bs q -> S x <= d ->
    2 + K * q <= d -> Nd R (WSRepeat (Some (WREmit evs s bs))) d
| Nd_roe_none d : 1 <= d -> Nd R (WSRepeatOrElse None) d
| Nd_roe_start contents s bs p x q d : Nd R s x -> OkIter bs q -> OkOnce p q ->
    K + x + K * q <= d -> Nd R (WSRepeatOrElse (Some (WROEStart contents s bs p))) d
| Nd_roe_fallback s x d : Nd R s x -> S x <= d -> Nd R (WSRepeatOrElse (Some (WROEFallback s))) d
| Nd_roe_repeat s x d : Nd R s x -> S x <= d -> Nd R (WSRepeatOrElse (Some (WROERepeat s))) d
| Nd_attr_none d : 1 <= d -> Nd R (WSAttr None) d
| Nd_attr_start s c x d : Nd R s x -> 2 + x <= d -> Nd R (WSAttr (Some (WAStart s c))) d
| Nd_attr_emit s x d : Nd R s x -> S x <= d -> Nd R (WSAttr (Some (WAEmit s))) d
(** [NdB R b q]: the builder makes a stream that needs [q] more. *)
with NdB (R : ranks) : wcontent_builder (W:=W) -> nat -> Prop :=
| NdB_user p q : OkOnce p q -> NdB R (WCBUser p) (K * q)
| NdB_remove : NdB R WCBRemove 2
| NdB_replace n y q : Nd R n y -> 4 <= q -> 2 + y <= q -> NdB R (WCBReplace n) q
| NdB_append n y q : Nd R n y -> 2 + y <= q -> 2 <= q -> NdB R (WCBAppend n) q
| NdB_prepend n y q : Nd R n y -> 2 + y <= q -> 2 <= q -> NdB R (WCBPrepend n) q
| NdB_select direct m b q : (forall k, OkOnce (b k) q) -> NdB R (WCBSelect direct m b) (3 + K * q)
| NdB_once direct m p q : OkOnce p q -> NdB R (WCBSelectOnce direct m p) (3 + K * q)
| NdB_repeat bs q : OkItems bs q -> NdB R (WCBRepeat bs) (3 + K * q).
Scheme Nd_ind' := Induction for Nd Sort Prop with NdB_ind' := Induction for NdB Sort Prop.

Lemma Nd_pos R s d : Nd R s d -> 1 <= d.
Proof. inversion 1; subst; try lia. Qed.
Lemma Nd_mono R s d : Nd R s d -> forall d', d <= d' -> Nd R s d'.
Proof. inversion 1; subst; intros d'' Hd; econstructor; eauto; try lia. Qed.
Lemma Nd_weaken R s d : Nd R s d -> forall R', R ⊆ R' -> Nd R' s d.
Proof.
  intros H R' HR. revert s d H.
  apply (Nd_ind' R (fun s d _ => Nd R' s d) (fun b q _ => NdB R' b q)); intros;
    econstructor; eauto; try lia; eapply lookup_weaken; eauto.
Qed.
Lemma NdB_weaken R b q : NdB R b q -> forall R', R ⊆ R' -> NdB R' b q.
Proof. intros H R' HR. destruct H; econstructor; eauto using Nd_weaken. Qed.

(** The heap holds streams that need no more than [R] says. *)
Definition Inv (R : ranks) (h : gmap loc (wcell W)) : Prop :=
  (forall l, h !! l = None -> R !! l = None) /\
  (forall l s, h !! l = Some (WCell s) -> exists r, R !! l = Some r /\ Nd R s r).

Lemma inv_empty : Inv ∅ ∅.
Proof. split; [intros l _; apply lookup_empty|intros l s H; now rewrite lookup_empty in H]. Qed.

Lemma inv_fresh R h s x : Inv R h -> Nd R s x ->
  let l := wfresh_loc h in let R' := <[l := x]> R in
  R ⊆ R' /\ R' !! l = Some x /\ Inv R' (<[l := WCell s]> h).
Proof.
  intros [Hn Hc] Hs. cbn zeta. pose proof (StopProofs.fresh_loc_none h) as Hl.
  assert (R ⊆ <[wfresh_loc h := x]> R) as Hsub by (apply insert_subseteq; auto).
  split; [exact Hsub|]. split; [apply lookup_insert|]. split.
  - intros l H. apply lookup_insert_None in H as [H H']. rewrite lookup_insert_ne by auto. auto.
  - intros l s' H. apply lookup_insert_Some in H as [[<- [= <-]]|[Hne H]].
    + exists x. split; [apply lookup_insert|]. eapply Nd_weaken; eauto.
    + apply Hc in H as (r & Hr & Hw). exists r. rewrite lookup_insert_ne by auto.
      split; [exact Hr|]. eapply Nd_weaken; eauto.
Qed.

Lemma inv_borrow R h l : Inv R h -> is_Some (h !! l) -> Inv R (<[l := WBorrowed]> h).
Proof.
  intros [Hn Hc] Hl. split.
  - intros l' H. apply lookup_insert_None in H as [H _]. auto.
  - intros l' s H. apply lookup_insert_Some in H as [[_ [=]]|[Hne H]]. auto.
Qed.
Lemma inv_return R h l s r : Inv R h -> R !! l = Some r -> Nd R s r -> Inv R (<[l := WCell s]> h).
Proof.
  intros [Hn Hc] Hl Hs. split.
  - intros l' H. apply lookup_insert_None in H as [H _]. auto.
  - intros l' s' H. apply lookup_insert_Some in H as [[<- [= <-]]|[Hne H]]; eauto.
Qed.

(** ** Building *)

Definition Grows (bld : wheap W -> wstrm W -> wout W (wstrm W)) (q : nat) : Prop :=
  forall R h s x h' s', Inv R (fst h) -> Nd R s x -> bld h s = WDone h' s' ->
  exists R', R ⊆ R' /\ Inv R' (fst h') /\ Nd R' s' (x + q).

Lemma grows_stream (f : wstrm W -> wstrm W) q :
  (forall R s x, Nd R s x -> Nd R (f s) (x + q)) -> Grows (fun h s => WDone h (f s)) q.
Proof. intros H R h s x h' s' Hi Hs [= <- <-]. exists R. auto. Qed.

Lemma grows_mono bld q q' : Grows bld q -> q <= q' -> Grows bld q'.
Proof.
  intros H Hq R h s x h' s' Hi Hs E. destruct (H R h s x h' s' Hi Hs E) as (R' & ? & ? & ?).
  exists R'. split; [auto|]. split; [auto|]. eapply Nd_mono; eauto. lia.
Qed.

Lemma into_stream_within R c : Nd R (winto_stream c) (S (nesting c)).
Proof.
  revert c. fix IH 1. intros [| | | | | |[c|e]]; cbn [winto_stream nesting]; try (constructor; lia).
  econstructor; [apply IH|]. lia.
Qed.

Lemma content_within R (c : wcontent W) : Nd R (wcontent_stream c) (S (wnesting c)).
Proof.
  induction c; cbn [wcontent_stream wnesting].
  - apply into_stream_within.
  - constructor. lia.
  - econstructor; [eassumption|]. lia.
Qed.

Lemma grows_select m b direct q : (forall k, OkOnce (b k) q) ->
  Grows (fun h s => let '(h, s) := wselect_new h s m b direct in WDone h s) (3 + K * q).
Proof.
  intros Hb R h s x h' s' Hi Hs [= <- <-].
  destruct (inv_fresh R (fst h) s x Hi Hs) as (H1 & H2 & H3). eexists. split; [exact H1|].
  split; [exact H3|]. econstructor; eauto. lia.
Qed.
Lemma grows_once m p direct q : OkOnce p q ->
  Grows (fun h s => let '(h, s) := wselect_once_new h s m p direct in WDone h s) (3 + K * q).
Proof.
  intros Hb R h s x h' s' Hi Hs [= <- <-].
  destruct (inv_fresh R (fst h) s x Hi Hs) as (H1 & H2 & H3). eexists. split; [exact H1|].
  split; [exact H3|]. econstructor; eauto. lia.
Qed.

Lemma grows_error err q : 1 <= q -> Grows (fun h s => WDone h (wfallible_new (inr err))) q.
Proof. intros Hq. apply grows_stream. intros. constructor. lia. Qed.

Lemma grows_attr name c : Grows (fun h s => wattr_new h s name c) 3.
Proof.
  intros R h s x h' s' Hi Hs E. unfold wattr_new in E. destruct name as [i|e].
  - destruct (c i); [|discriminate]. injection E as <- <-. exists R. split; [auto|]. split; [auto|].
    econstructor; [econstructor; [eauto|apply Nat.le_refl]|]. lia.
  - injection E as <- <-. exists R. split; [auto|]. split; [auto|]. constructor. lia.
Qed.

Lemma grows_fallible bld q : Grows bld q ->
  Grows (fun h s => wbind (bld h s) (fun h s => WDone h (wfallible_new (inl s)))) (S q).
Proof.
  intros H R h s x h' s' Hi Hs E. destruct (bld h s) as [| |h1 s1] eqn:Eb; try discriminate.
  injection E as <- <-. destruct (H _ _ _ _ _ _ Hi Hs Eb) as (R' & ? & ? & ?). exists R'.
  split; [auto|]. split; [auto|]. econstructor; eauto. lia.
Qed.

Lemma grows_build p d : WDepth p d -> Grows (wbuild p) (K * d).
Proof.
  induction 1 as [d|o p d d' Hs IHs Hc _ IH].
  { intros R h s x h' s' Hi Hw [= <- <-]. exists R. split; [auto|]. split; [auto|]. eapply Nd_mono; eauto. lia. }
  assert (Grows (wbuild_op o) (K * S d)) as Ho.
  2:{ intros R h s x h' s' Hi Hw E. cbn [wbuild] in E.
      destruct (wbuild_op o h s) as [| |h1 s1] eqn:E1; try discriminate. cbn [wbind] in E.
      destruct (Ho _ _ _ _ _ _ Hi Hw E1) as (R1 & HR1 & Hi1 & Hw1).
      destruct (IH _ _ _ _ _ _ Hi1 Hw1 E) as (R2 & HR2 & Hi2 & Hw2).
      exists R2. split; [etransitivity; eauto|]. split; [auto|]. eapply Nd_mono; eauto. lia. }
  assert (forall c, wop_content o = Some c -> forall R, Nd R (wcontent_stream c) (S d)) as Hin.
  { intros c Ec R. eapply Nd_mono; [apply content_within|]. apply Hc in Ec. lia. }
  clear Hc IH.
  destruct o; cbn [Makes] in Hs, IHs; cbn [wop_content] in Hin;
    try specialize (Hin _ eq_refl); try specialize (Hs _ eq_refl); try specialize (IHs _ eq_refl);
    try (eapply grows_mono; [apply grows_attr|lia]).
  - (* apply *) eapply grows_mono; [exact IHs|lia].
  - apply grows_stream. intros. eapply Nd_mono; eauto. lia.
  - apply grows_stream. intros. eapply Nd_mono; eauto. lia.
  - (* either *)
    intros R h s x h' s' Hi Hw E. change (wbind (wbuild p0 h s) (fun h s => WDone h (WSApplyEither first s)) = WDone h' s') in E.
    destruct (wbuild p0 h s) as [| |h1 s1] eqn:E1; try discriminate. injection E as <- <-.
    destruct (IHs _ _ _ _ _ _ Hi Hw E1) as (R1 & HR1 & Hi1 & Hw1).
    exists R1. split; [auto|]. split; [auto|]. econstructor; eauto. lia.
  - apply grows_stream. intros. econstructor; eauto. lia.
  - (* select *)
    destruct sel as [m|e]; [|apply grows_error; lia].
    apply (grows_mono _ (S (3 + K * d))); [|lia].
    change (Grows (fun h s => wbind (let '(h, s) := wselect_new h s m b direct in WDone h s)
                                (fun h s => WDone h (wfallible_new (inl s)))) (S (3 + K * d))).
    apply grows_fallible, grows_select. intros k w. apply Hs. now exists k, w.
  - destruct sel as [m|e]; [|apply grows_error; lia].
    apply (grows_mono _ (S (3 + K * d))); [|lia].
    change (Grows (fun h s => wbind (let '(h, s) := wselect_once_new h s m b direct in WDone h s)
                                (fun h s => WDone h (wfallible_new (inl s)))) (S (3 + K * d))).
    apply grows_fallible, grows_once. intros w. apply Hs. now exists w.
  - apply grows_stream. intros. econstructor; eauto. lia.
  - apply grows_stream. intros. econstructor; [apply Hin|eauto|lia|lia].
  - apply grows_stream. intros. econstructor; [eauto|apply Hin|lia|lia].
  - apply grows_stream. intros. econstructor; [apply Hin|econstructor; [eauto|apply Nat.le_refl]|lia|lia].
  - apply grows_stream. intros R s x Hw. eapply (Nd_repeat_collect _ _ _ _ d); [eauto| |lia|lia].
    split; [discriminate|]. intros k v v' b E w. apply Hs. now exists k, v, v', b, w.
  - apply grows_stream. intros R s x Hw. apply (Nd_roe_start _ _ _ _ _ x d); [auto| | |lia].
    + intros k v v' b' E w. apply Hs. left. now exists k, v, v', b', w.
    + intros w. apply Hs. right. now exists w.
  - apply grows_stream. intros R s x Hw.
    eapply Nd_contents_open; [eauto|apply (NdB_user _ _ d); intros w; apply Hs; now exists w|lia|lia|lia].
  - destruct sel as [m|e]; [|apply grows_error; lia].
    apply grows_stream. intros R s x Hw. econstructor; [eapply Nd_contents_open|].
    + eauto.
    + apply NdB_select. intros k w. apply Hs. now exists k, w.
    + apply Nat.le_add_r.
    + apply Nat.le_refl.
    + lia.
    + lia.
  - destruct sel as [m|e]; [|apply grows_error; lia].
    apply grows_stream. intros R s x Hw. econstructor; [eapply Nd_contents_open|].
    + eauto.
    + apply NdB_once. intros w. apply Hs. now exists w.
    + apply Nat.le_add_r.
    + apply Nat.le_refl.
    + lia.
    + lia.
  - apply grows_stream. intros R s x Hw. eapply Nd_contents_open; [eauto|constructor|lia|lia|lia].
  - apply grows_stream. intros R s x Hw.
    eapply Nd_contents_open; [eauto|apply (NdB_prepend _ _ (S d) (3 + d)); [apply Hin|lia|lia]|lia|lia|lia].
  - apply grows_stream. intros R s x Hw.
    eapply Nd_contents_open; [eauto|apply (NdB_append _ _ (S d) (3 + d)); [apply Hin|lia|lia]|lia|lia|lia].
  - apply grows_stream. intros R s x Hw.
    eapply Nd_contents_open; [eauto|apply (NdB_replace _ _ (S d) (4 + d)); [apply Hin|lia|lia]|lia|lia|lia].
  - apply grows_stream. intros R s x Hw.
    eapply Nd_contents_open; [eauto|apply (NdB_repeat _ _ d)|lia|lia|lia].
    split; [discriminate|]. intros k v v' b E w. apply Hs. now exists k, v, v', b, w.
  - apply grows_stream. intros R s x Hw. apply (Nd_roe_start _ _ _ _ _ x d); [auto| | |lia].
    + intros k v v' b' E w. apply Hs. left. now exists k, v, v', b', w.
    + intros w. apply Hs. right. now exists w.
  - (* remove_id *)
    intros R h s x h' s' Hi Hw E. cbn [wbuild_op] in E. destruct (static_ident (lit "id"%string)); [|discriminate].
    injection E as <- <-. exists R. split; [auto|]. split; [auto|]. econstructor; eauto. lia.
Qed.

Lemma grows_run b q : OkOnce b q -> Grows (run_builder b) (K * q).
Proof.
  intros Hb R h s x h' s' Hi Hw E. unfold run_builder in E. specialize (Hb (snd h)).
  destruct (b (snd h)) as [w p]. exact (grows_build p q Hb R (fst h, w) s x h' s' Hi Hw E).
Qed.

Lemma grows_content R b q : NdB R b q -> forall h s x h' s', Inv R (fst h) -> Nd R s x ->
  wbuild_content b h s = WDone h' s' -> exists R', R ⊆ R' /\ Inv R' (fst h') /\ Nd R' s' (x + q).
Proof.
  intros Hb h s x h' s' Hi Hw E. pose proof (Nd_pos _ _ _ Hw). destruct Hb; cbn [wbuild_content] in E.
  - eapply (grows_run p q); eauto.
  - injection E as <- <-. exists R. split; [auto|]. split; [auto|]. econstructor; eauto. lia.
  - injection E as <- <-. exists R. split; [auto|]. split; [auto|].
    econstructor; [eauto|econstructor; [eauto|apply Nat.le_refl]|lia|lia].
  - injection E as <- <-. exists R. split; [auto|]. split; [auto|]. econstructor; eauto; lia.
  - injection E as <- <-. exists R. split; [auto|]. split; [auto|]. econstructor; eauto; lia.
  - eapply (grows_select m b direct q); eauto.
  - eapply (grows_once m p direct q); eauto.
  - injection E as <- <-. exists R. split; [auto|]. split; [auto|].
    eapply Nd_repeat_collect; [eauto|eauto|lia|lia].
Qed.

(** ** Running *)

(** [Same o o']: [o] and [o'] are the same, or (if not [strict]) they are if [o] is done. *)
Context (strict : bool).
Definition Same {A} (o o' : wout W A) : Prop :=
  if strict then o = o' else forall h a, o = WDone h a -> o' = WDone h a.
Lemma same_refl {A} (o : wout W A) : Same o o.
Proof. unfold Same. destruct strict; auto. Qed.
Lemma same_fuel {A} (o : wout W A) : strict = false -> Same WOutOfFuel o.
Proof. unfold Same. intros ->. discriminate. Qed.
Lemma same_bind {A B} (o o' : wout W A) (k k' : wheap W -> A -> wout W B) : Same o o' ->
  (forall h a, o = WDone h a -> Same (k h a) (k' h a)) -> Same (wbind o k) (wbind o' k').
Proof.
  unfold Same. destruct strict.
  - intros <- H. destruct o; cbn [wbind]; auto.
  - intros Ho H h a E. destruct o as [| |h1 a1]; try discriminate. rewrite (Ho h1 a1 eq_refl).
    cbn [wbind] in *. eapply H; eauto.
Qed.

(** If it is done the stream needs [x] from then on. *)
Definition Sim (R : ranks) (x : nat) (o o' : wstep_out W) : Prop :=
  Same o o' /\ forall h s r, o = WDone h (s, r) -> exists R', R ⊆ R' /\ Inv R' (fst h) /\ Nd R' s x.

Lemma sim_done R x h s r : Inv R (fst h) -> Nd R s x -> Sim R x (WDone h (s, r)) (WDone h (s, r)).
Proof. intros Hi Hw. split; [apply same_refl|]. intros h' s' r' [= <- <- <-]. exists R. auto. Qed.
Lemma sim_panic R x : Sim R x WPanicked WPanicked.
Proof. split; [apply same_refl|]. discriminate. Qed.
Lemma sim_mono R x y o o' : Sim R x o o' -> x <= y -> Sim R y o o'.
Proof.
  intros [H0 H] Hy. split; [auto|]. intros h s r E. destruct (H h s r E) as (R2 & ? & ? & ?).
  exists R2. split; [auto|]. split; [auto|]. eapply Nd_mono; eauto.
Qed.

Lemma sim_bind R x d o o' k k' : Sim R x o o' ->
  (forall R' h s r, R ⊆ R' -> Inv R' (fst h) -> Nd R' s x -> Sim R' d (k h (s, r)) (k' h (s, r))) ->
  Sim R d (wbind o k) (wbind o' k').
Proof.
  intros [Ho Hp] Hk. split.
  - apply same_bind; [auto|]. intros h [s r] E. destruct (Hp h s r E) as (R' & HR & Hi & Hw). eapply Hk; eauto.
  - intros h s r E. destruct o as [| |h1 [s1 r1]]; try discriminate.
    destruct (Hp h1 s1 r1 eq_refl) as (R' & HR & Hi & Hw). cbn [wbind] in *.
    destruct (proj2 (Hk R' h1 s1 r1 HR Hi Hw) h s r E) as (R2 & ? & ? & ?).
    exists R2. split; [etransitivity; eauto|auto].
Qed.

Lemma sim_on_ok R x d o o' dead k k' : Sim R x o o' ->
  (forall R' s, R ⊆ R' -> Nd R' s x -> Nd R' (dead s) d) ->
  (forall R' h s r, R ⊆ R' -> Inv R' (fst h) -> Nd R' s x -> Sim R' d (k h s r) (k' h s r)) ->
  Sim R d (won_ok o dead k) (won_ok o' dead k').
Proof.
  intros Ho Hd Hk. eapply sim_bind; [exact Ho|]. intros R' h s [r|e] HR Hi Hw; [auto|].
  apply sim_done; auto.
Qed.

Lemma sim_passthrough R x d o o' dead cont : Sim R x o o' ->
  (forall R', Nd R' dead d) -> (forall R' s, Nd R' s x -> Nd R' (cont s) d) ->
  Sim R d (wpassthrough o dead cont) (wpassthrough o' dead cont).
Proof.
  intros Ho Hd Hc. eapply sim_on_ok; [exact Ho|auto|].
  intros R' h s [ev|] HR Hi Hw; apply sim_done; auto.
Qed.

Lemma sim_build R d bld q h s x k k' : Grows bld q -> Inv R (fst h) -> Nd R s x ->
  (forall R' h s, R ⊆ R' -> Inv R' (fst h) -> Nd R' s (x + q) -> Sim R' d (k h s) (k' h s)) ->
  Sim R d (wbind (bld h s) k) (wbind (bld h s) k').
Proof.
  intros Hg Hi Hw Hk. destruct (bld h s) as [| |h1 s1] eqn:Eb.
  - split; [apply same_refl|discriminate].
  - apply sim_panic.
  - destruct (Hg _ _ _ _ _ _ Hi Hw Eb) as (R' & HR & Hi' & Hw'). cbn [wbind].
    destruct (Hk R' h1 s1 HR Hi' Hw') as [H1 H2]. split; [auto|]. intros h' s' r E.
    destruct (H2 h' s' r E) as (R2 & ? & ? & ?). exists R2. split; [etransitivity; eauto|auto].
Qed.

Lemma sim_cell R h l r f g : R !! l = Some r -> Inv R (fst h) ->
  (forall R' h s, R ⊆ R' -> Inv R' (fst h) -> Nd R' s r -> Sim R' r (f h s) (g h s)) ->
  Sim R (S r) (wwith_cell h l f) (wwith_cell h l g).
Proof.
  intros Hl Hi H. unfold wwith_cell. destruct (fst h !! l) as [[c|]|] eqn:El; try apply sim_panic.
  pose proof (proj2 Hi l c El) as (r' & Hr & Hw). rewrite Hl in Hr. injection Hr as <-.
  eapply sim_bind; [apply (H R); auto; apply inv_borrow; eauto|].
  intros R' h' s' r' HR Hi' Hw'. assert (R' !! l = Some r) as Hl' by (eapply lookup_weaken; eauto).
  apply sim_done; [eapply inv_return; eauto|]. econstructor; eauto.
Qed.

(** ** The four functions *)

Section step.
Context (e1 e2 : wengine W) (d' : nat).
Hypothesis IHne : forall d R h s, Inv R (fst h) -> Nd R s d -> d <= d' ->
  Sim R d (wne e1 h s) (wne e2 h s).
Hypothesis IHsk : forall d R h s, Inv R (fst h) -> Nd R s d -> S d <= d' ->
  Sim R d (wsk e1 h s) (wsk e2 h s).
Hypothesis IHdr : forall d R h s, Inv R (fst h) -> Nd R s d -> S d <= d' ->
  Sim R (2 + d) (wdr e1 h s) (wdr e2 h s).
Hypothesis IHco : forall d R h s acc, Inv R (fst h) -> Nd R s d -> 2 + d <= d' ->
  Same (wco e1 h s acc) (wco e2 h s acc) /\
  forall h' r, wco e1 h s acc = WDone h' r -> exists R', R ⊆ R' /\ Inv R' (fst h').

Lemma sim_shared d R h l r : Inv R (fst h) -> R !! l = Some r -> S r <= d -> d <= S d' ->
  Sim R (S r) (wwith_cell h l (wne e1)) (wwith_cell h l (wne e2)).
Proof. intros Hi Hl H1 H2. apply sim_cell; auto. intros. apply IHne; auto. lia. Qed.

Lemma sim_peek d R h s : Inv R (fst h) -> Nd R s d -> d <= S d' ->
  Sim R d (wpeek e1 h s) (wpeek e2 h s).
Proof.
  intros Hi Hw Hd. destruct s; try apply sim_panic. cbn [wpeek]. destruct buffered.
  { now apply sim_done. }
  inversion Hw; subst. eapply sim_on_ok; [eapply IHsk; eauto; lia| |].
  - intros. econstructor; eauto.
  - intros. apply sim_done; auto. econstructor; eauto.
Qed.

Lemma sim_co d R h s acc dd k k' : Inv R (fst h) -> Nd R s d -> 2 + d <= d' ->
  (forall R' h r, R ⊆ R' -> Inv R' (fst h) -> Sim R' dd (k h r) (k' h r)) ->
  Sim R dd (wbind (wco e1 h s acc) k) (wbind (wco e2 h s acc) k').
Proof.
  intros Hi Hw Hd Hk. destruct (IHco _ _ _ _ acc Hi Hw Hd) as [H1 H2]. split.
  - apply same_bind; [auto|]. intros h1 r1 E. destruct (H2 _ _ E) as (R' & HR & Hi'). eapply Hk; eauto.
  - intros h' s' r E. destruct (wco e1 h s acc) as [| |h1 r1]; try discriminate.
    destruct (H2 _ _ eq_refl) as (R' & HR & Hi'). cbn [wbind] in E.
    destruct (proj2 (Hk R' h1 r1 HR Hi') h' s' r E) as (R2 & ? & ? & ?).
    exists R2. split; [etransitivity; eauto|auto].
Qed.

Lemma next_ok (i : items W) w q : OkItems i q ->
  match next_item i w with
  | (_, _, None) => True
  | (_, i', Some b) => OkOnce b q /\ OkItems i' q
  end.
Proof.
  destruct i as [[b|] it]; cbn [OkItems next_item]; intros [H1 H2].
  - split; [auto|]. split; [discriminate|auto].
  - destruct (it 0 w) as [w' [b|]] eqn:E; [|auto]. split; [eapply H2; eauto|].
    split; [discriminate|]. intros k v v' b' E'. eapply H2; eauto.
Qed.

Ltac done_ := apply sim_done; [assumption|econstructor; eauto; lia].
Ltac lw := match goal with H : ?R !! ?l = Some _, S : ?R ⊆ ?R' |- ?R' !! ?l = Some _ =>
  eapply lookup_weaken; [exact H|exact S] end.

Lemma sim_ne d R h s : Inv R (fst h) -> Nd R s d -> d <= S d' ->
  Sim R d (wne_body e1 h s) (wne_body e2 h s).
Proof.
  intros Hi Hw Hd. destruct Hw; cbn [wne_body].
  - destruct (nth_error evs i); done_.
  - destruct evs, e; done_.
  - destruct f as [f|]; [|done_]. destruct (f 0 (snd h)) as [w [[ev|]|err]]; done_.
  - destruct c; done_.
  - eapply sim_mono; [eapply sim_shared; eauto|]. lia.
  - done_.
  - done_.
  - done_.
  - eapply sim_passthrough; [eapply IHne; eauto; lia| |]; intros; econstructor; eauto; lia.
  - done_.
  - eapply sim_on_ok; [eapply IHsk; eauto; lia|intros; constructor; lia|].
    intros R' h' s' [[]|] HR Hi' Hw'; done_.
  - eapply sim_passthrough; [eapply IHne; eauto; lia| |]; intros; econstructor; eauto; lia.
  - done_.
  - destruct ev; [done_|].
    eapply sim_on_ok; [eapply IHsk; eauto; lia| |]; intros; [econstructor; eauto; lia|done_].
  - done_.
  - eapply sim_on_ok; [eapply IHsk; eauto; lia|intros; constructor; lia|].
    intros R' h' s' [|] HR Hi' Hw'; [|apply sim_done; [auto|]].
    + apply sim_done; auto. eapply (Nd_combine_first _ _ _ _ y); eauto. eapply Nd_weaken; eauto.
    + eapply Nd_combine_second; [eapply Nd_weaken; eauto|auto].
  - eapply sim_passthrough; [eapply IHsk; eauto; lia| |]; intros; econstructor; eauto; lia.
  - eapply sim_mono; [eapply IHdr; eauto; lia|lia].
  - done_.
  - destruct ev; done_.
  - eapply sim_on_ok; [eapply IHne; eauto; lia|intros; constructor; lia|].
    intros R' h' s' [ev|] HR Hi' Hw'; [|done_].
    destruct (is_opening_tag_for ev tag); [done_|]. destruct (is_closing_tag_for ev tag); [|done_].
    destruct level; done_.
  - done_.
  - (* select, scanning *)
    eapply sim_on_ok; [eapply IHsk; [eauto|econstructor; eauto|lia]|intros; constructor; lia|].
    intros R' h' s' [ev|] HR Hi' Hw'; [|done_].
    assert (R' !! l = Some r) as Hl by (eapply lookup_weaken; eauto).
    destruct (include direct level && matches m ev).
    + eapply (sim_build _ _ _ (K * q) _ _ (2 + r)); [apply grows_run; auto|auto| |].
      * econstructor; [econstructor; eauto|lia].
      * intros R2 h2 s2 HR2 Hi2 Hw2. apply sim_done; auto.
        eapply Nd_select_active; [lw|eauto|lia|eauto|lia].
    + destruct (adjust level ev); [|done_]. apply sim_done; auto. econstructor; [lw|eauto|lia].
  - (* select, active *)
    eapply sim_on_ok; [eapply IHne; eauto; lia|intros; constructor; lia|].
    intros R' h' s' [ev|] HR Hi' Hw'; apply sim_done; auto.
    + eapply Nd_select_active; [lw|eauto|lia|eauto|lia].
    + econstructor; [lw|eauto|lia].
  - done_.
  - (* select_once, scanning *)
    eapply sim_on_ok; [eapply IHsk; [eauto|econstructor; eauto|lia]|intros; constructor; lia|].
    intros R' h' s' [ev|] HR Hi' Hw'; [|done_].
    assert (R' !! l = Some r) as Hl by (eapply lookup_weaken; eauto).
    destruct (include direct level && matches m ev).
    + eapply (sim_build _ _ _ (K * q) _ _ (2 + r)); [apply grows_run; auto|auto| |].
      * econstructor; [econstructor; eauto|lia].
      * intros R2 h2 s2 HR2 Hi2 Hw2. apply sim_done; auto.
        eapply Nd_once_active; [lw|lia|eauto|lia].
    + destruct (adjust level ev); [|done_]. apply sim_done; auto. econstructor; [lw|eauto|lia].
  - eapply sim_on_ok; [eapply IHne; eauto; lia|intros; constructor; lia|].
    intros R' h' s' [ev|] HR Hi' Hw'; apply sim_done; auto.
    + eapply Nd_once_active; [lw|lia|eauto|lia].
    + econstructor; [lw|lia].
  - eapply sim_on_ok; [eapply IHne; [eauto|econstructor; eauto|lia]|intros; constructor; lia|].
    intros R' h' s' [ev|] HR Hi' Hw'; [|done_]. apply sim_done; auto. econstructor; [lw|lia].
  - done_.
  - (* contents, open *)
    eapply (sim_on_ok _ (2 + x)); [eapply IHsk; [eauto|econstructor; eauto|lia]|intros; constructor; lia|].
    intros R' h' s' [ev|] HR Hi' Hw'; [|done_]. destruct ev; try done_.
    assert (Nd R' (WSPeek s' None) (4 + x)) as Hp by (econstructor; [exact Hw'|lia]).
    destruct (inv_fresh _ _ _ _ Hi' Hp) as (HR2 & Hl2 & Hi2).
    set (l := wfresh_loc (fst h')) in *. set (R2 := <[l := 4 + x]> R') in *.
    assert (NdB R2 b q) as Hb by (eapply NdB_weaken; [eassumption|etransitivity; eassumption]).
    assert (Nd R2 (WSCurrentContent (Some (tag, l, 0))) (6 + x)) as Hcur by (econstructor; [exact Hl2|lia]).
    split; [apply same_refl|]. intros h3 s3 r3 E.
    destruct (wbuild_content b _ (WSCurrentContent (Some (tag, l, 0)))) as [| |h4 s4] eqn:Eb; try discriminate.
    injection E as <- <- <-.
    destruct (grows_content _ _ _ Hb (_, _) _ _ _ _ Hi2 Hcur Eb) as (R4 & HR4 & Hi4 & Hw4).
    exists R4. split; [etransitivity; eauto|]. split; [auto|].
    eapply Nd_contents_content; [eapply lookup_weaken; eauto|lia|eauto|lia].
  - (* contents, content *)
    eapply sim_on_ok; [eapply IHne; eauto; lia|intros; constructor; lia|].
    intros R' h' s' [ev|] HR Hi' Hw'; apply sim_done; auto.
    + eapply Nd_contents_content; [lw|lia|eauto|lia].
    + econstructor; [lw|lia].
  - eapply sim_on_ok; [eapply IHsk; [eauto|econstructor; eauto|lia]|intros; constructor; lia|].
    intros R' h' s' [ev|] HR Hi' Hw'; [|done_]. destruct ev; try done_.
    destruct (ident_eqb _ tag); done_.
  - done_.
  - (* current contents *)
    assert (forall R', R ⊆ R' -> forall h', Inv R' (fst h') -> Sim R' d
      (won_ok (wne e1 h' (WSShared l)) (fun _ => WSCurrentContent None) (fun h0 _ r0 =>
         match r0 with
         | Some ev => match adjust level ev with
                      | inl level => wemit h0 (WSCurrentContent (Some (tag, l, level))) ev
                      | inr _ => wfail h0 (WSCurrentContent None) (missing_close tag)
                      end
         | None => wfail h0 (WSCurrentContent None) (missing_close tag)
         end))
      (won_ok (wne e2 h' (WSShared l)) (fun _ => WSCurrentContent None) (fun h0 _ r0 =>
         match r0 with
         | Some ev => match adjust level ev with
                      | inl level => wemit h0 (WSCurrentContent (Some (tag, l, level))) ev
                      | inr _ => wfail h0 (WSCurrentContent None) (missing_close tag)
                      end
         | None => wfail h0 (WSCurrentContent None) (missing_close tag)
         end))) as Hnext.
    { intros R' HR h' Hi'. assert (R' !! l = Some r) as Hl by lw.
      eapply sim_on_ok; [eapply IHne; [eauto|econstructor; eauto|lia]|intros; constructor; lia|].
      intros R2 h2 s2 [ev|] HR2 Hi2 Hw2; [|done_]. destruct (adjust level ev); [|done_].
      apply sim_done; auto. econstructor; [lw|lia]. }
    destruct (negb (level =? 0)); [apply Hnext; auto|].
    eapply (sim_on_ok _ (S r)); [|intros; constructor; lia|].
    + apply sim_cell; auto. intros. apply sim_peek; auto. lia.
    + intros R' h' s' [ev|] HR Hi' Hw'; [|done_].
      destruct (is_closing_tag_for ev tag); [done_|]. now apply Hnext.
  - eapply sim_bind; [eapply IHne; eauto; lia|]. intros. done_.
  - done_.
  - eapply sim_co; [eauto|eauto|lia|]. intros R' h' [evs|e] HR Hi'; [|done_].
    destruct (f (snd h') evs) as [w [evs'|err]]; done_.
  - eapply sim_passthrough; [eapply IHne; [eauto|apply (Nd_template _ _ _ 1); lia|lia]|intros; constructor; lia|].
    intros R' s' Hw'. destruct s'; first [constructor; lia|eapply Nd_mono; [exact Hw'|lia]].
  - done_.
  - eapply sim_co; [eauto|eauto|lia|]. intros R' h' [evs|e] HR Hi'; done_.
  - match goal with H : OkItems _ _ |- _ => rename H into HOk end.
    pose proof (next_ok bs (snd h) q HOk) as Hn. destruct (next_item bs (snd h)) as [[w bs'] [b|]]; [|done_].
    destruct Hn as [Hb Hn].
    eapply (sim_build _ _ _ (K * q) (fst h, w) _ 1); [apply grows_run; eauto|auto|constructor; lia|].
    intros R2 h2 s2 HR2 Hi2 Hw2. apply sim_done; auto.
    eapply (Nd_repeat_emit _ _ _ _ _ q); [eauto|exact Hn|lia|lia].
  - eapply sim_on_ok; [eapply IHne; eauto; lia|intros; constructor; lia|].
    intros R' h' s' [ev|] HR Hi' Hw'; done_.
  - done_.
  - match goal with H : OkIter _ _ |- _ => rename H into HOk end.
    destruct (bs 0 (snd h)) as [w [item|]] eqn:Ebs; cycle 1.
    + eapply (sim_build _ _ _ (K * q) (fst h, w) _ x); [apply grows_run; auto|auto|auto|].
      intros R2 h2 s2 HR2 Hi2 Hw2. done_.
    + apply sim_done; auto. apply (Nd_roe_repeat _ _ (11 + x + K * q)); [|lia].
      assert (OkItems (Items (Some item) (fun n0 => bs (S n0))) q) as Hit.
      { split; [intros b [= <-]; eapply HOk; eauto|]. intros k v v' b E. eapply HOk; eauto. }
      destruct contents.
      * eapply Nd_contents_open; [eauto|constructor; eauto|lia|lia|lia].
      * eapply Nd_repeat_collect; [eauto|eauto|lia|lia].
  - eapply sim_passthrough; [eapply IHne; eauto; lia| |]; intros; econstructor; eauto; lia.
  - eapply sim_passthrough; [eapply IHne; eauto; lia| |]; intros; econstructor; eauto; lia.
  - done_.
  - eapply sim_on_ok; [eapply IHsk; eauto; lia|intros; constructor; lia|].
    intros R' h' s' [[]|] HR Hi' Hw'; done_.
  - eapply sim_passthrough; [eapply IHne; eauto; lia| |]; intros; econstructor; eauto; lia.
Qed.
End step.

End World.

(** ** What happens without room does not matter *)

Lemma room_enough {W} (none1 none2 : wengine W) loops d' :
  (forall d R h s, Inv R (fst h) -> Nd R s d -> d <= d' ->
     Sim true R d (wne (wdeep none1 loops d') h s) (wne (wdeep none2 loops d') h s)) /\
  (forall d R h s, Inv R (fst h) -> Nd R s d -> S d <= d' ->
     Sim true R d (wsk (wdeep none1 loops d') h s) (wsk (wdeep none2 loops d') h s)) /\
  (forall d R h s, Inv R (fst h) -> Nd R s d -> S d <= d' ->
     Sim true R (2 + d) (wdr (wdeep none1 loops d') h s) (wdr (wdeep none2 loops d') h s)) /\
  (forall d R h s acc, Inv R (fst h) -> Nd R s d -> 2 + d <= d' ->
     Same true (wco (wdeep none1 loops d') h s acc) (wco (wdeep none2 loops d') h s acc) /\
     forall h' r, wco (wdeep none1 loops d') h s acc = WDone h' r ->
     exists R', R ⊆ R' /\ Inv R' (fst h')).
Proof.
  induction d' as [|d' (IHne & IHsk & IHdr & IHco)].
  { split; [|split; [|split]]; intros; try lia. pose proof (Nd_pos _ _ _ H0). lia. }
  cbn [wdeep wne wsk wdr wco]. split; [|split; [|split]].
  - intros d R h s Hi Hw Hd. eapply sim_ne; eauto.
  - intros d R h s Hi Hw Hd. assert (d <= d') as Hd' by lia. clear Hd.
    generalize loops at 2 4. intros k. revert R h s Hi Hw.
    induction k as [|k IH]; intros R h s Hi Hw; cbn [wsk_loop]; [split; [reflexivity|discriminate]|].
    eapply sim_bind; [apply IHne; eauto|]. intros R' h' s' [[[]|]|] HR Hi' Hw'; try now apply sim_done.
    auto.
  - intros d R h s Hi Hw Hd. assert (d <= d') as Hd' by lia. clear Hd.
    generalize loops at 2 4. intros k. revert R h s Hi Hw.
    induction k as [|k IH]; intros R h s Hi Hw; cbn [wdr_loop]; [split; [reflexivity|discriminate]|].
    eapply sim_bind; [apply IHne; eauto|]. intros R' h' s' [[|]|] HR Hi' Hw'; auto.
    + apply sim_done; auto. econstructor; eauto.
    + apply sim_done; auto. econstructor; eauto.
  - intros d R h s acc Hi Hw Hd. assert (S d <= d') as Hd' by lia. clear Hd.
    generalize loops at 2 4 6. intros k. revert R h s acc Hi Hw.
    induction k as [|k IH]; intros R h s acc Hi Hw; cbn [wco_loop]; [split; [reflexivity|discriminate]|].
    destruct (IHsk d R h s Hi Hw Hd') as [Hs Hp]. hnf in Hs. rewrite <- Hs.
    destruct (wsk (wdeep none1 loops d') h s) as [| |h1 [s1 r1]]; cbn [wbind];
      try (split; [reflexivity|discriminate]).
    destruct (Hp _ _ _ eq_refl) as (R1 & HR1 & Hi1 & Hw1). destruct r1 as [[ev|]|e].
    + destruct (IH R1 h1 s1 (acc ++ [ev]) Hi1 Hw1) as [H1 H2]. split; [exact H1|].
      intros h' r E. destruct (H2 h' r E) as (R2 & ? & ?). exists R2. split; [etransitivity; eauto|auto].
    + split; [reflexivity|]. intros h' r [= <- <-]. eauto.
    + split; [reflexivity|]. intros h' r [= <- <-]. eauto.
Qed.

Lemma depth_enough {W} (b : once W) d : (forall v, WDepth (snd (b v)) d) ->
  forall none1 none2 loops room evs w, K * d + 3 <= room ->
  wtransform_deep none1 loops room evs b w = wtransform_deep none2 loops room evs b w.
Proof.
  intros Hb none1 none2 loops room evs w Hr. unfold wtransform_deep.
  destruct (run_builder b (∅, w) (WSTemplate evs 0)) as [| |h1 s1] eqn:Eb; try reflexivity.
  cbn [wbind].
  destruct (grows_run b d Hb ∅ (∅, w) (WSTemplate evs 0) 1 h1 s1 inv_empty) as (R & _ & Hi & Hw);
    [constructor; lia|exact Eb|].
  apply (proj2 (proj2 (proj2 (room_enough none1 none2 loops room))) (1 + K * d) R h1 s1 []); auto. lia.
Qed.

(** ** Results are those of [MachineState] *)

Lemma run_deep {W} (none : wengine W) n : forall loops, n <= loops ->
  (forall d d' R h s, Inv R (fst h) -> Nd R s d -> d <= d' ->
     Sim false R d (wne (wrun n) h s) (wne (wdeep none loops d') h s)) /\
  (forall k d d' R h s, n <= k -> Inv R (fst h) -> Nd R s d -> d <= d' ->
     Sim false R d (wsk (wrun n) h s) (wsk_loop (wne (wdeep none loops d')) k h s)) /\
  (forall k d d' R h s, n <= k -> Inv R (fst h) -> Nd R s d -> d <= d' ->
     Sim false R (2 + d) (wdr (wrun n) h s) (wdr_loop (wne (wdeep none loops d')) k h s)) /\
  (forall k d d' R h s acc, n <= k -> Inv R (fst h) -> Nd R s d -> S d <= d' ->
     Same false (wco (wrun n) h s acc) (wco_loop (wsk (wdeep none loops d')) k h s acc) /\
     forall h' r, wco (wrun n) h s acc = WDone h' r -> exists R', R ⊆ R' /\ Inv R' (fst h')).
Proof.
  induction n as [|n IH]; intros loops Hl.
  { split; [|split; [|split]]; intros; (split; [intros ? ?; discriminate|intros; discriminate]). }
  destruct (IH loops ltac:(lia)) as (IHne & IHsk & IHdr & IHco).
  assert (forall d d' R h s, Inv R (fst h) -> Nd R s d -> S d <= d' ->
            Sim false R d (wsk (wrun n) h s) (wsk (wdeep none loops d') h s)) as IHsk'.
  { intros d [|d'] R h s Hi Hw Hd; [lia|]. apply IHsk; auto; lia. }
  split; [|split; [|split]].
  - intros d [|d'] R h s Hi Hw Hd; [apply Nd_pos in Hw; lia|]. cbn [wrun wdeep wne].
    apply (sim_ne false (wrun n) (wdeep none loops d') d'); auto.
    + intros x R' h' s' Hi' Hw' Hx. destruct d' as [|d']; [lia|]. apply IHdr; auto; lia.
    + intros x R' h' s' acc Hi' Hw' Hx. destruct d' as [|d']; [lia|]. apply (IHco loops x d'); auto; lia.
  - intros [|k] d d' R h s Hk Hi Hw Hd; [lia|]. cbn [wrun wsk]. unfold wsk_body. cbn [wsk_loop].
    eapply sim_bind; [apply IHne; eauto|]. intros R' h' s' [[[]|]|] HR Hi' Hw'; try now apply sim_done.
    apply IHsk; auto; lia.
  - intros [|k] d d' R h s Hk Hi Hw Hd; [lia|]. cbn [wrun wdr]. unfold wdr_body. cbn [wdr_loop].
    eapply sim_bind; [apply IHne; eauto|]. intros R' h' s' [[|]|] HR Hi' Hw'.
    + apply IHdr; auto; lia.
    + apply sim_done; auto. econstructor; eauto.
    + apply sim_done; auto. econstructor; eauto.
  - intros [|k] d d' R h s acc Hk Hi Hw Hd; [lia|]. cbn [wrun wco]. unfold wco_body. cbn [wco_loop].
    destruct (IHsk' d d' R h s Hi Hw Hd) as [Hs Hp]. split.
    + apply same_bind; [exact Hs|]. intros h1 [s1 r1] E1. destruct (Hp _ _ _ E1) as (R1 & HR1 & Hi1 & Hw1).
      destruct r1 as [[ev|]|e]; [|apply same_refl|apply same_refl].
      apply (IHco k d d' R1); auto. lia.
    + intros h' r E. destruct (wsk (wrun n) h s) as [| |h1 [s1 r1]]; try discriminate. cbn [wbind] in E.
      destruct (Hp _ _ _ eq_refl) as (R1 & HR1 & Hi1 & Hw1). destruct r1 as [[ev|]|e].
      * destruct (proj2 (IHco k d d' R1 h1 s1 (acc ++ [ev]) ltac:(lia) Hi1 Hw1 Hd) _ _ E) as (R2 & ? & ?).
        exists R2. split; [etransitivity; eauto|auto].
      * injection E as <- <-. eauto.
      * injection E as <- <-. eauto.
Qed.

Lemma deep_done {W} (b : once W) d : (forall v, WDepth (snd (b v)) d) ->
  forall evs w r w', GivesIn evs b w r w' ->
  exists loops0, forall none loops room, loops0 <= loops -> K * d + 3 <= room ->
  exists h, wtransform_deep none loops room evs b w = WDone (h, w') r.
Proof.
  intros Hb evs w r w' (n & h & E). exists n. intros none loops room Hl Hr. exists h.
  unfold wtransform, wtransform_deep in *.
  destruct (run_builder b (∅, w) (WSTemplate evs 0)) as [| |h1 s1] eqn:Eb; try discriminate.
  cbn [wbind] in *.
  destruct (grows_run b d Hb ∅ (∅, w) (WSTemplate evs 0) 1 h1 s1 inv_empty) as (R & _ & Hi & Hw);
    [constructor; lia|exact Eb|].
  destruct (run_deep none n loops Hl) as (_ & _ & _ & Hco). destruct room as [|room]; [lia|].
  cbn [wdeep wco].
  apply (proj1 (Hco loops (1 + K * d) room R h1 s1 [] ltac:(lia) Hi Hw ltac:(lia))). exact E.
Qed.

Lemma wle_run_more {W} n m : n <= m -> wle_engine (W:=W) (wrun n) (wrun m).
Proof.
  induction 1 as [|m _ IH]; [repeat split; intros; apply wle_refl|].
  pose proof (wle_run (W:=W) m) as (A1 & A2 & A3 & A4). destruct IH as (B1 & B2 & B3 & B4).
  split; [|split; [|split]]; intros; eapply wle_trans; eauto.
Qed.

Lemma deep_run {W} loops d : exists n, wle_engine (W:=W) (wdeep (wrun 0) loops d) (wrun n).
Proof.
  induction d as [|d [n IH]]; [exists 0; repeat split; intros; apply wle_refl|].
  set (e := wdeep (wrun 0) loops d) in *.
  assert (forall k h s, wle (wsk_loop (wne e) k h s) (wsk (wrun (n + k)) h s)) as Hsk.
  { induction k as [|k IHk]; intros h s; [now left|]. cbn [wsk_loop].
    replace (n + S k) with (S (n + k)) by lia. cbn [wrun wsk]. unfold wsk_body. apply wle_bind.
    - eapply wle_trans; [apply IH|]. apply (wle_run_more n (n + k)). lia.
    - intros h1 [s1 [[[]|]|]]; auto using wle_refl. }
  assert (forall k h s, wle (wdr_loop (wne e) k h s) (wdr (wrun (n + k)) h s)) as Hdr.
  { induction k as [|k IHk]; intros h s; [now left|]. cbn [wdr_loop].
    replace (n + S k) with (S (n + k)) by lia. cbn [wrun wdr]. unfold wdr_body. apply wle_bind.
    - eapply wle_trans; [apply IH|]. apply (wle_run_more n (n + k)). lia.
    - intros h1 [s1 [[|]|]]; auto using wle_refl. }
  assert (forall k h s acc, wle (wco_loop (wsk e) k h s acc) (wco (wrun (n + k)) h s acc)) as Hco.
  { induction k as [|k IHk]; intros h s acc; [now left|]. cbn [wco_loop].
    replace (n + S k) with (S (n + k)) by lia. cbn [wrun wco]. unfold wco_body. apply wle_bind.
    - eapply wle_trans; [apply IH|]. apply (wle_run_more n (n + k)). lia.
    - intros h1 [s1 [[|]|]]; auto using wle_refl. }
  exists (S (n + loops)). pose proof (wle_run (W:=W) (n + loops)) as (R1 & R2 & R3 & R4).
  cbn [wdeep]. fold e. split; [|split; [|split]]; cbn [wne wsk wdr wco]; intros.
  - apply (wle_trans _ (wne_body (wrun n) h s)); [now apply wle_ne_body|].
    apply (wle_ne_body (wrun n) (wrun (n + loops))), wle_run_more. lia.
  - eapply wle_trans; [apply Hsk|]. apply R2.
  - eapply wle_trans; [apply Hdr|]. apply R3.
  - eapply wle_trans; [apply Hco|]. apply R4.
Qed.

Lemma deep_gives {W} (b : once W) d : (forall v, WDepth (snd (b v)) d) ->
  forall none loops room evs w h w' r, K * d + 3 <= room ->
  wtransform_deep none loops room evs b w = WDone (h, w') r -> GivesIn evs b w r w'.
Proof.
  intros Hb none loops room evs w h w' r Hr E.
  rewrite (depth_enough b d Hb none (wrun 0) loops room evs w Hr) in E. unfold wtransform_deep in E.
  destruct (deep_run (W:=W) loops room) as [n (_ & _ & _ & H)]. exists n, h. unfold wtransform.
  destruct (run_builder b (∅, w) (WSTemplate evs 0)) as [| |h1 s1]; try discriminate. cbn [wbind] in *.
  destruct (H h1 s1 []) as [E'|E']; congruence.
Qed.
