(** Proofs for C58: the depth of calls does not depend on the document. *)
From Coq Require Import List Lia.
From stdpp Require Import gmap.
From Verif Require Import Text Event Input Parse Selector Machine.
From Verif Require Import SpecTransform SpecDepth Depth StreamBase FuelProofs RobustProofs.
Local Open Scope nat_scope.

(** The cost of a call, see [build_op_within]. *)
Notation K := 12.

Lemma depth_mono p d : Depth p d -> forall d', d <= d' -> Depth p d'.
Proof.
  induction 1 as [d|o p d d' Hs _ Hc Hp IH]; intros x Hx; [constructor|].
  replace x with (S (d + (x - S d))) by lia. constructor; auto. apply IH. lia.
Qed.

(** ** How much room a stream needs *)

(** [R] gives the room that the streams in the cells of the heap need. *)
Notation ranks := (gmap loc nat).

Inductive W (R : ranks) : strm -> nat -> Prop :=
| W_template evs i d : 1 <= d -> W R (STemplate evs i) d
| W_user evs e d : 1 <= d -> W R (SUser evs e) d
| W_content c d : 1 <= d -> W R (SContent c) d
| W_shared l r d : R !! l = Some r -> S r <= d -> W R (SShared l) d
| W_fallible_none d : 1 <= d -> W R (SFallible None) d
| W_fallible_err e d : 1 <= d -> W R (SFallible (Some (FStart (inr e)))) d
| W_fallible_start s x d : W R s x -> S x <= d -> W R (SFallible (Some (FStart (inl s)))) d
| W_fallible_emit s x d : W R s x -> S x <= d -> W R (SFallible (Some (FEmit s))) d
| W_expand_none d : 1 <= d -> W R (SExpand None) d
| W_expand_start s x d : W R s x -> 2 + x <= d -> W R (SExpand (Some (XStart s))) d
| W_expand_emit s x d : W R s x -> S x <= d -> W R (SExpand (Some (XEmitStream s))) d
| W_expand_close tag d : 1 <= d -> W R (SExpand (Some (XEmitClosingTag tag))) d
| W_peek s ev x d : W R s x -> 2 + x <= d -> W R (SPeek s ev) d
| W_combine_none d : 1 <= d -> W R (SCombine None) d
| W_combine_first s1 s2 x y d : W R s1 x -> W R s2 y -> 2 + x <= d -> 2 + y <= d ->
    W R (SCombine (Some (CmbFirst s1 s2))) d
| W_combine_second s2 y d : W R s2 y -> 2 + y <= d -> W R (SCombine (Some (CmbSecond s2))) d
| W_remove s x d : W R s x -> 2 + x <= d -> W R (SRemove s) d
| W_single_none d : 1 <= d -> W R (SSingle None) d
| W_single_start ev s x d : W R s x -> S x <= d -> W R (SSingle (Some (SEStart ev s))) d
| W_single_until tag s level x d : W R s x -> S x <= d ->
    W R (SSingle (Some (SEUntilClose tag s level))) d
| W_select_none l m b calls direct d : 1 <= d -> W R (SSelect l m b calls direct None) d
| W_select_scan l r q m b calls direct level d : R !! l = Some r ->
    (forall k, Depth (b k) q) -> 3 + r + K * q <= d ->
    W R (SSelect l m b calls direct (Some (SelScanning level))) d
| W_select_active l r q m b calls direct level s x d : R !! l = Some r ->
    (forall k, Depth (b k) q) -> 3 + r + K * q <= d -> W R s x -> S x <= d ->
    W R (SSelect l m b calls direct (Some (SelActive level s))) d
| W_once_none l d : 1 <= d -> W R (SSelectOnce l None) d
| W_once_scan l r q m p direct level d : R !! l = Some r -> Depth p q -> 3 + r + K * q <= d ->
    W R (SSelectOnce l (Some (SelOScanning m p direct level))) d
| W_once_active l r s x d : R !! l = Some r -> 2 + r <= d -> W R s x -> S x <= d ->
    W R (SSelectOnce l (Some (SelOActive s))) d
| W_once_pass l r d : R !! l = Some r -> 2 + r <= d -> W R (SSelectOnce l (Some SelOPassthrough)) d
| W_contents_none d : 1 <= d -> W R (SSelectContent None) d
| W_contents_open s x b q d : W R s x -> WB R b q -> 7 + x <= d -> 7 + x + q <= d -> S q <= d ->
    W R (SSelectContent (Some (SCOpen s b))) d
| W_contents_content l r s tag x d : R !! l = Some r -> 3 + r <= d -> W R s x -> S x <= d ->
    W R (SSelectContent (Some (SCContent l s tag))) d
| W_contents_close l r tag d : R !! l = Some r -> 3 + r <= d ->
    W R (SSelectContent (Some (SCClose l tag))) d
| W_current_none d : 1 <= d -> W R (SCurrentContent None) d
| W_current tag l r level d : R !! l = Some r -> 2 + r <= d ->
    W R (SCurrentContent (Some (tag, l, level))) d
| W_either first s x d : W R s x -> S x <= d -> W R (SApplyEither first s) d
| W_apply_none d : 1 <= d -> W R (STemplateApply None) d
| W_apply_collect s f x d : W R s x -> 3 + x <= d -> W R (STemplateApply (Some (TACollect s f))) d
| W_apply_emit evs i d : 2 <= d -> W R (STemplateApply (Some (TAEmit evs i))) d
| W_repeat_none d : 1 <= d -> W R (SRepeat None) d
| W_repeat_collect s bs x q d : W R s x -> (forall p, In p bs -> Depth p q) -> 3 + x <= d ->
    2 + K * q <= d -> W R (SRepeat (Some (RCollect s bs))) d
| W_repeat_next evs bs q d : (forall p, In p bs -> Depth p q) -> 2 + K * q <= d ->
    W R (SRepeat (Some (RNext evs bs))) d
| W_repeat_emit evs s bs x q d : W R s x -> (forall p, In p bs -> Depth p q) -> S x <= d ->
    2 + K * q <= d -> W R (SRepeat (Some (REmit evs s bs))) d
| W_roe_none d : 1 <= d -> W R (SRepeatOrElse None) d
| W_roe_start contents s bs p x q d : W R s x -> (forall p, In p bs -> Depth p q) -> Depth p q ->
    K + x + K * q <= d -> W R (SRepeatOrElse (Some (ROEStart contents s bs p))) d
| W_roe_fallback s x d : W R s x -> S x <= d -> W R (SRepeatOrElse (Some (ROEFallback s))) d
| W_roe_repeat s x d : W R s x -> S x <= d -> W R (SRepeatOrElse (Some (ROERepeat s))) d
| W_attr_none d : 1 <= d -> W R (SAttr None) d
| W_attr_start s c x d : W R s x -> 2 + x <= d -> W R (SAttr (Some (AStart s c))) d
| W_attr_emit s x d : W R s x -> S x <= d -> W R (SAttr (Some (AEmit s))) d
(** [WB R b q]: the builder makes a stream that needs [q] more. *)
with WB (R : ranks) : content_builder -> nat -> Prop :=
| WB_user p q : Depth p q -> WB R (CBUser p) (K * q)
| WB_remove : WB R CBRemove 2
| WB_replace n y q : W R n y -> 4 <= q -> 2 + y <= q -> WB R (CBReplace n) q
| WB_append n y q : W R n y -> 2 + y <= q -> 2 <= q -> WB R (CBAppend n) q
| WB_prepend n y q : W R n y -> 2 + y <= q -> 2 <= q -> WB R (CBPrepend n) q
| WB_select direct m b q : (forall k, Depth (b k) q) -> WB R (CBSelect direct m b) (3 + K * q)
| WB_once direct m p q : Depth p q -> WB R (CBSelectOnce direct m p) (3 + K * q)
| WB_repeat bs q : (forall p, In p bs -> Depth p q) -> WB R (CBRepeat bs) (3 + K * q).
Scheme W_ind' := Induction for W Sort Prop with WB_ind' := Induction for WB Sort Prop.

Lemma W_pos R s d : W R s d -> 1 <= d.
Proof. inversion 1; subst; try lia. Qed.
Lemma W_mono R s d : W R s d -> forall d', d <= d' -> W R s d'.
Proof. inversion 1; subst; intros d'' Hd; econstructor; eauto; try lia. Qed.
Lemma W_weaken R s d : W R s d -> forall R', R ⊆ R' -> W R' s d.
Proof.
  intros H R' HR. revert s d H.
  apply (W_ind' R (fun s d _ => W R' s d) (fun b q _ => WB R' b q)); intros;
    econstructor; eauto; try lia; eapply lookup_weaken; eauto.
Qed.
Lemma WB_weaken R b q : WB R b q -> forall R', R ⊆ R' -> WB R' b q.
Proof. intros H R' HR. destruct H; econstructor; eauto using W_weaken. Qed.

(** The heap holds streams that need no more than [R] says. *)
Definition Inv (R : ranks) (h : heap) : Prop :=
  (forall l, h !! l = None -> R !! l = None) /\
  (forall l s, h !! l = Some (Cell s) -> exists r, R !! l = Some r /\ W R s r).

Lemma inv_empty : Inv ∅ ∅.
Proof. split; [intros l _; apply lookup_empty|intros l s H; now rewrite lookup_empty in H]. Qed.

Lemma inv_fresh R h s x : Inv R h -> W R s x ->
  let l := fresh_loc h in let R' := <[l := x]> R in
  R ⊆ R' /\ R' !! l = Some x /\ Inv R' (<[l := Cell s]> h).
Proof.
  intros [Hn Hc] Hs. cbn zeta. pose proof (fresh_loc_none h) as Hl.
  assert (R ⊆ <[fresh_loc h := x]> R) as Hsub by (apply insert_subseteq; auto).
  split; [exact Hsub|]. split; [apply lookup_insert|]. split.
  - intros l H. apply lookup_insert_None in H as [H H']. rewrite lookup_insert_ne by auto. auto.
  - intros l s' H. apply lookup_insert_Some in H as [[<- [= <-]]|[Hne H]].
    + exists x. split; [apply lookup_insert|]. eapply W_weaken; eauto.
    + apply Hc in H as (r & Hr & Hw). exists r. rewrite lookup_insert_ne by auto.
      split; [exact Hr|]. eapply W_weaken; eauto.
Qed.

Lemma inv_borrow R h l : Inv R h -> is_Some (h !! l) -> Inv R (<[l := Borrowed]> h).
Proof.
  intros [Hn Hc] Hl. split.
  - intros l' H. apply lookup_insert_None in H as [H _]. auto.
  - intros l' s H. apply lookup_insert_Some in H as [[_ [=]]|[Hne H]]. auto.
Qed.
Lemma inv_return R h l s r : Inv R h -> R !! l = Some r -> W R s r -> Inv R (<[l := Cell s]> h).
Proof.
  intros [Hn Hc] Hl Hs. split.
  - intros l' H. apply lookup_insert_None in H as [H _]. auto.
  - intros l' s' H. apply lookup_insert_Some in H as [[<- [= <-]]|[Hne H]]; eauto.
Qed.

(** ** Building *)

Definition Grows (bld : heap -> strm -> out strm) (q : nat) : Prop :=
  forall R h s x h' s', Inv R h -> W R s x -> bld h s = Done h' s' ->
  exists R', R ⊆ R' /\ Inv R' h' /\ W R' s' (x + q).

Lemma grows_stream (f : strm -> strm) q :
  (forall R s x, W R s x -> W R (f s) (x + q)) -> Grows (fun h s => Done h (f s)) q.
Proof. intros H R h s x h' s' Hi Hs [= <- <-]. exists R. auto. Qed.

Lemma grows_mono bld q q' : Grows bld q -> q <= q' -> Grows bld q'.
Proof.
  intros H Hq R h s x h' s' Hi Hs E. destruct (H R h s x h' s' Hi Hs E) as (R' & ? & ? & ?).
  exists R'. split; [auto|]. split; [auto|]. eapply W_mono; eauto. lia.
Qed.

Lemma into_stream_within R c : W R (into_stream c) (S (nesting c)).
Proof.
  revert c. fix IH 1. intros [| | | | | |[c|e]]; cbn [into_stream nesting]; try (constructor; lia).
  econstructor; [apply IH|]. lia.
Qed.

Lemma grows_select m b direct q : (forall k, Depth (b k) q) ->
  Grows (fun h s => let '(h, s) := select_new h s m b direct in Done h s) (3 + K * q).
Proof.
  intros Hb R h s x h' s' Hi Hs [= <- <-].
  destruct (inv_fresh R h s x Hi Hs) as (H1 & H2 & H3). eexists. split; [exact H1|].
  split; [exact H3|]. econstructor; eauto. lia.
Qed.
Lemma grows_once m p direct q : Depth p q ->
  Grows (fun h s => let '(h, s) := select_once_new h s m p direct in Done h s) (3 + K * q).
Proof.
  intros Hb R h s x h' s' Hi Hs [= <- <-].
  destruct (inv_fresh R h s x Hi Hs) as (H1 & H2 & H3). eexists. split; [exact H1|].
  split; [exact H3|]. econstructor; eauto. lia.
Qed.

Lemma grows_error err q : 1 <= q -> Grows (fun h s => Done h (fallible_new (inr err))) q.
Proof. intros Hq. apply grows_stream. intros. constructor. lia. Qed.

Lemma grows_attr name c : Grows (fun h s => attr_new h s name c) 3.
Proof.
  intros R h s x h' s' Hi Hs E. unfold attr_new in E. destruct name as [i|e].
  - destruct (c i); [|discriminate]. injection E as <- <-. exists R. split; [auto|]. split; [auto|].
    econstructor; [econstructor; [eauto|apply Nat.le_refl]|]. lia.
  - injection E as <- <-. exists R. split; [auto|]. split; [auto|]. constructor. lia.
Qed.

Lemma grows_fallible bld q : Grows bld q ->
  Grows (fun h s => obind (bld h s) (fun h s => Done h (fallible_new (inl s)))) (S q).
Proof.
  intros H R h s x h' s' Hi Hs E. destruct (bld h s) as [| |h1 s1] eqn:Eb; try discriminate.
  injection E as <- <-. destruct (H _ _ _ _ _ _ Hi Hs Eb) as (R' & ? & ? & ?). exists R'.
  split; [auto|]. split; [auto|]. econstructor; eauto. lia.
Qed.

Lemma build_op_apply q h s : build_op (OApply q) h s = build q h s.
Proof. reflexivity. Qed.

Lemma grows_build p d : Depth p d -> Grows (build p) (K * d).
Proof.
  induction 1 as [d|o p d d' Hs IHs Hc _ IH].
  { intros R h s x h' s' Hi Hw [= <- <-]. exists R. split; [auto|]. split; [auto|]. eapply W_mono; eauto. lia. }
  assert (Grows (build_op o) (K * S d)) as Ho.
  2:{ intros R h s x h' s' Hi Hw E. cbn [build] in E.
      destruct (build_op o h s) as [| |h1 s1] eqn:E1; try discriminate. cbn [obind] in E.
      destruct (Ho _ _ _ _ _ _ Hi Hw E1) as (R1 & HR1 & Hi1 & Hw1).
      destruct (IH _ _ _ _ _ _ Hi1 Hw1 E) as (R2 & HR2 & Hi2 & Hw2).
      exists R2. split; [etransitivity; eauto|]. split; [auto|]. eapply W_mono; eauto. lia. }
  assert (forall c, op_content o = Some c -> forall R, W R (into_stream c) (S d)) as Hin.
  { intros c Ec R. eapply W_mono; [apply into_stream_within|]. apply Hc in Ec. lia. }
  clear Hc IH.
  destruct o; cbn [op_content] in Hin;
    try specialize (Hin _ eq_refl); try specialize (Hs _ eq_refl); try specialize (IHs _ eq_refl);
    try (eapply grows_mono; [apply grows_attr|lia]).
  - (* apply *) eapply grows_mono; [exact IHs|lia].
  - apply grows_stream. intros. eapply W_mono; eauto. lia.
  - apply grows_stream. intros. eapply W_mono; eauto. lia.
  - (* either *)
    intros R h s x h' s' Hi Hw E. change (obind (build p0 h s) (fun h s => Done h (SApplyEither first s)) = Done h' s') in E.
    destruct (build p0 h s) as [| |h1 s1] eqn:E1; try discriminate. injection E as <- <-.
    destruct (IHs _ _ _ _ _ _ Hi Hw E1) as (R1 & HR1 & Hi1 & Hw1).
    exists R1. split; [auto|]. split; [auto|]. econstructor; eauto. lia.
  - apply grows_stream. intros. econstructor; eauto. lia.
  - (* select *)
    destruct sel as [m|e]; [|apply grows_error; lia].
    apply (grows_mono _ (S (3 + K * d))); [|lia].
    change (Grows (fun h s => obind (let '(h, s) := select_new h s m b direct in Done h s)
                                (fun h s => Done h (fallible_new (inl s)))) (S (3 + K * d))).
    apply grows_fallible, grows_select. intros k. apply Hs. now exists k.
  - destruct sel as [m|e]; [|apply grows_error; lia].
    apply (grows_mono _ (S (3 + K * d))); [|lia].
    change (Grows (fun h s => obind (let '(h, s) := select_once_new h s m p0 direct in Done h s)
                                (fun h s => Done h (fallible_new (inl s)))) (S (3 + K * d))).
    now apply grows_fallible, grows_once.
  - apply grows_stream. intros. econstructor; eauto. lia.
  - apply grows_stream. intros. econstructor; [apply Hin|eauto|lia|lia].
  - apply grows_stream. intros. econstructor; [eauto|apply Hin|lia|lia].
  - apply grows_stream. intros. econstructor; [apply Hin|econstructor; [eauto|apply Nat.le_refl]|lia|lia].
  - apply grows_stream. intros R s x Hw. eapply (W_repeat_collect _ _ _ _ d); [eauto| |lia|lia]. exact Hs.
  - apply grows_stream. intros R s x Hw. apply (W_roe_start _ _ _ _ _ x d); [auto| | |lia].
    + intros q Hq. apply Hs. now left.
    + apply Hs. now right.
  - apply grows_stream. intros R s x Hw.
    eapply W_contents_open; [eauto|constructor; exact Hs|lia|lia|lia].
  - destruct sel as [m|e]; [|apply grows_error; lia].
    apply grows_stream. intros R s x Hw. econstructor; [eapply W_contents_open|].
    + eauto.
    + apply WB_select. intros k. apply Hs. now exists k.
    + apply Nat.le_add_r.
    + apply Nat.le_refl.
    + lia.
    + lia.
  - destruct sel as [m|e]; [|apply grows_error; lia].
    apply grows_stream. intros R s x Hw. econstructor; [eapply W_contents_open|].
    + eauto.
    + apply WB_once. exact Hs.
    + apply Nat.le_add_r.
    + apply Nat.le_refl.
    + lia.
    + lia.
  - apply grows_stream. intros R s x Hw. eapply W_contents_open; [eauto|constructor|lia|lia|lia].
  - apply grows_stream. intros R s x Hw.
    eapply W_contents_open; [eauto|apply (WB_prepend _ _ (S d) (3 + d)); [apply Hin|lia|lia]|lia|lia|lia].
  - apply grows_stream. intros R s x Hw.
    eapply W_contents_open; [eauto|apply (WB_append _ _ (S d) (3 + d)); [apply Hin|lia|lia]|lia|lia|lia].
  - apply grows_stream. intros R s x Hw.
    eapply W_contents_open; [eauto|apply (WB_replace _ _ (S d) (4 + d)); [apply Hin|lia|lia]|lia|lia|lia].
  - apply grows_stream. intros R s x Hw.
    eapply W_contents_open; [eauto|constructor; exact Hs|lia|lia|lia].
  - apply grows_stream. intros R s x Hw. apply (W_roe_start _ _ _ _ _ x d); [auto| | |lia].
    + intros q Hq. apply Hs. now left.
    + apply Hs. now right.
  - (* remove_id *)
    intros R h s x h' s' Hi Hw E. cbn [build_op] in E. destruct (static_ident _); [|discriminate].
    injection E as <- <-. exists R. split; [auto|]. split; [auto|]. econstructor; eauto. lia.
Qed.

Lemma grows_content R b q : WB R b q -> forall h s x h' s', Inv R h -> W R s x ->
  build_content b h s = Done h' s' -> exists R', R ⊆ R' /\ Inv R' h' /\ W R' s' (x + q).
Proof.
  intros Hb h s x h' s' Hi Hw E. pose proof (W_pos _ _ _ Hw). destruct Hb; cbn [build_content] in E.
  - eapply grows_build; eauto.
  - injection E as <- <-. exists R. split; [auto|]. split; [auto|]. econstructor; eauto. lia.
  - injection E as <- <-. exists R. split; [auto|]. split; [auto|].
    econstructor; [eauto|econstructor; [eauto|apply Nat.le_refl]|lia|lia].
  - injection E as <- <-. exists R. split; [auto|]. split; [auto|]. econstructor; eauto; lia.
  - injection E as <- <-. exists R. split; [auto|]. split; [auto|]. econstructor; eauto; lia.
  - eapply (grows_select m b direct q); eauto.
  - eapply (grows_once m p direct q); eauto.
  - injection E as <- <-. exists R. split; [auto|]. split; [auto|].
    eapply W_repeat_collect; [eauto|eauto|lia|lia].
Qed.

(** ** Running *)

(** If [o] is done, so is [o'], with the same result, and the stream needs [x] from then on. *)
Definition Sim (R : ranks) (x : nat) (o o' : step_out) : Prop :=
  forall h s r, o = Done h (s, r) ->
  o' = Done h (s, r) /\ exists R', R ⊆ R' /\ Inv R' h /\ W R' s x.

Lemma sim_done R x h s r : Inv R h -> W R s x -> Sim R x (Done h (s, r)) (Done h (s, r)).
Proof. intros Hi Hw h' s' r' [= <- <- <-]. split; [auto|]. exists R. auto. Qed.
Lemma sim_sub R R' x o o' : R ⊆ R' -> Sim R' x o o' -> Sim R x o o'.
Proof.
  intros HR H h s r E. destruct (H h s r E) as (? & R2 & ? & ? & ?). split; [auto|].
  exists R2. split; [etransitivity; eauto|auto].
Qed.

Lemma sim_mono R x y o o' : Sim R x o o' -> x <= y -> Sim R y o o'.
Proof.
  intros H Hy h s r E. destruct (H h s r E) as (? & R2 & ? & ? & ?). split; [auto|].
  exists R2. split; [auto|]. split; [auto|]. eapply W_mono; eauto.
Qed.

Lemma sim_bind R x d o o' k k' : Sim R x o o' ->
  (forall R' h s r, R ⊆ R' -> Inv R' h -> W R' s x -> Sim R' d (k h (s, r)) (k' h (s, r))) ->
  Sim R d (obind o k) (obind o' k').
Proof.
  intros Ho Hk h s r E. destruct o as [| |h1 [s1 r1]]; try discriminate.
  destruct (Ho h1 s1 r1 eq_refl) as (-> & R' & HR & Hi & Hw). cbn [obind] in *.
  exact (sim_sub _ _ _ _ _ HR (Hk R' h1 s1 r1 HR Hi Hw) h s r E).
Qed.

Lemma sim_on_ok R x d o o' dead k k' : Sim R x o o' ->
  (forall R' s, R ⊆ R' -> W R' s x -> W R' (dead s) d) ->
  (forall R' h s r, R ⊆ R' -> Inv R' h -> W R' s x -> Sim R' d (k h s r) (k' h s r)) ->
  Sim R d (on_ok o dead k) (on_ok o' dead k').
Proof.
  intros Ho Hd Hk. eapply sim_bind; [exact Ho|]. intros R' h s [r|e] HR Hi Hw; [auto|].
  apply sim_done; auto.
Qed.

Lemma sim_passthrough R x d o o' dead cont : Sim R x o o' ->
  (forall R', W R' dead d) -> (forall R' s, W R' s x -> W R' (cont s) d) ->
  Sim R d (passthrough o dead cont) (passthrough o' dead cont).
Proof.
  intros Ho Hd Hc. eapply sim_on_ok; [exact Ho|auto|].
  intros R' h s [ev|] HR Hi Hw; apply sim_done; auto.
Qed.

Lemma sim_build R d bld q h s x k k' : Grows bld q -> Inv R h -> W R s x ->
  (forall R' h s, R ⊆ R' -> Inv R' h -> W R' s (x + q) -> Sim R' d (k h s) (k' h s)) ->
  Sim R d (obind (bld h s) k) (obind (bld h s) k').
Proof.
  intros Hg Hi Hw Hk h' s' r E. destruct (bld h s) as [| |h1 s1] eqn:Eb; try discriminate.
  destruct (Hg _ _ _ _ _ _ Hi Hw Eb) as (R' & HR & Hi' & Hw'). cbn [obind] in *.
  exact (sim_sub _ _ _ _ _ HR (Hk R' h1 s1 HR Hi' Hw') h' s' r E).
Qed.

Lemma sim_cell R h l r f g : R !! l = Some r -> Inv R h ->
  (forall R' h s, R ⊆ R' -> Inv R' h -> W R' s r -> Sim R' r (f h s) (g h s)) ->
  Sim R (S r) (with_cell h l f) (with_cell h l g).
Proof.
  intros Hl Hi H. unfold with_cell. destruct (h !! l) as [[c|]|] eqn:El; try (intros ? ? ?; discriminate).
  pose proof (proj2 Hi l c El) as (r' & Hr & Hw). rewrite Hl in Hr. injection Hr as <-.
  eapply sim_bind; [apply (H R); auto; apply inv_borrow; eauto|].
  intros R' h' s' r' HR Hi' Hw'. assert (R' !! l = Some r) as Hl' by (eapply lookup_weaken; eauto).
  apply sim_done; [eapply inv_return; eauto|]. econstructor; eauto.
Qed.

(** ** The four functions *)

Section step.
Context (n loops : nat).
Hypothesis IHne : forall d d' R h s, Inv R h -> W R s d -> d <= d' ->
  Sim R d (ne (run n) h s) (ne (deep loops d') h s).
Hypothesis IHsk : forall d d' R h s, Inv R h -> W R s d -> S d <= d' ->
  Sim R d (sk (run n) h s) (sk (deep loops d') h s).
Hypothesis IHdr : forall d d' R h s, Inv R h -> W R s d -> S d <= d' ->
  Sim R (2 + d) (dr (run n) h s) (dr (deep loops d') h s).
Hypothesis IHco : forall d d' R h s acc, Inv R h -> W R s d -> 2 + d <= d' ->
  forall h' r, co (run n) h s acc = Done h' r ->
  co (deep loops d') h s acc = Done h' r /\ exists R', R ⊆ R' /\ Inv R' h'.

Lemma sim_shared d d' R h l r : Inv R h -> R !! l = Some r -> S r <= d -> d <= S d' ->
  Sim R (S r) (with_cell h l (ne (run n))) (with_cell h l (ne (deep loops d'))).
Proof. intros Hi Hl H1 H2. apply sim_cell; auto. intros. apply IHne; auto. lia. Qed.

Lemma sim_peek d d' R h s : Inv R h -> W R s d -> d <= S d' ->
  Sim R d (peek (run n) h s) (peek (deep loops d') h s).
Proof.
  intros Hi Hw Hd. destruct s; try (intros ? ? ?; discriminate). cbn [peek]. destruct buffered.
  { now apply sim_done. }
  inversion Hw; subst. eapply sim_on_ok; [eapply IHsk; eauto; lia| |].
  - intros. econstructor; eauto.
  - intros. apply sim_done; auto. econstructor; eauto.
Qed.

Lemma sim_co d d' R h s acc dd k k' : Inv R h -> W R s d -> 2 + d <= d' ->
  (forall R' h r, R ⊆ R' -> Inv R' h -> Sim R' dd (k h r) (k' h r)) ->
  Sim R dd (obind (co (run n) h s acc) k) (obind (co (deep loops d') h s acc) k').
Proof.
  intros Hi Hw Hd Hk h' s' r E. destruct (co (run n) h s acc) as [| |h1 r1] eqn:Ec; try discriminate.
  destruct (IHco _ _ _ _ _ _ Hi Hw Hd _ _ Ec) as (-> & R' & HR & Hi'). cbn [obind] in *.
  exact (sim_sub _ _ _ _ _ HR (Hk R' h1 r1 HR Hi') h' s' r E).
Qed.

Ltac done_ := apply sim_done; [assumption|econstructor; eauto; lia].
Ltac lw := match goal with H : ?R !! ?l = Some _, S : ?R ⊆ ?R' |- ?R' !! ?l = Some _ =>
  eapply lookup_weaken; [exact H|exact S] end.

Lemma sim_ne d d' R h s : Inv R h -> W R s d -> d <= S d' ->
  Sim R d (ne_body (run n) h s) (ne_body (deep loops d') h s).
Proof.
  intros Hi Hw Hd. destruct Hw; cbn [ne_body].
  - destruct (nth_error evs i); done_.
  - destruct evs, e; done_.
  - destruct c; done_.
  - eapply sim_mono; [eapply sim_shared; eauto|]. lia.
  - done_.
  - done_.
  - done_.
  - eapply sim_passthrough; [eapply IHne; eauto; lia| |]; intros; econstructor; eauto; lia.
  - done_.
  - eapply sim_on_ok; [eapply IHsk; eauto; lia|intros; constructor; lia|].
    intros R' h' s' [[]|] HR Hi' Hw'; done_.
  - eapply sim_passthrough; [eapply IHne; eauto; lia| |]; intros; econstructor; eauto; lia.
  - done_.
  - destruct ev; [done_|].
    eapply sim_on_ok; [eapply IHsk; eauto; lia| |]; intros; [econstructor; eauto; lia|done_].
  - done_.
  - eapply sim_on_ok; [eapply IHsk; eauto; lia|intros; constructor; lia|].
    intros R' h' s' [|] HR Hi' Hw'; [|apply sim_done; [auto|]].
    + apply sim_done; auto. eapply (W_combine_first _ _ _ _ y); eauto. eapply W_weaken; eauto.
    + eapply W_combine_second; [eapply W_weaken; eauto|auto].
  - eapply sim_passthrough; [eapply IHsk; eauto; lia| |]; intros; econstructor; eauto; lia.
  - eapply sim_mono; [eapply IHdr; eauto; lia|lia].
  - done_.
  - destruct ev; done_.
  - eapply sim_on_ok; [eapply IHne; eauto; lia|intros; constructor; lia|].
    intros R' h' s' [ev|] HR Hi' Hw'; [|done_].
    destruct (is_opening_tag_for ev tag); [done_|]. destruct (is_closing_tag_for ev tag); [|done_].
    destruct level; done_.
  - done_.
  - (* select, scanning *)
    eapply sim_on_ok; [eapply IHsk; [eauto|econstructor; eauto|lia]|intros; constructor; lia|].
    intros R' h' s' [ev|] HR Hi' Hw'; [|done_].
    assert (R' !! l = Some r) as Hl by (eapply lookup_weaken; eauto).
    destruct (include direct level && matches m ev).
    + eapply (sim_build _ _ _ (K * q) _ _ (2 + r)); [apply grows_build; auto|auto| |].
      * econstructor; [econstructor; eauto|lia].
      * intros R2 h2 s2 HR2 Hi2 Hw2. apply sim_done; auto.
        eapply W_select_active; [lw|eauto|lia|eauto|lia].
    + destruct (adjust level ev); [|done_]. apply sim_done; auto. econstructor; [lw|eauto|lia].
  - (* select, active *)
    eapply sim_on_ok; [eapply IHne; eauto; lia|intros; constructor; lia|].
    intros R' h' s' [ev|] HR Hi' Hw'; apply sim_done; auto.
    + eapply W_select_active; [lw|eauto|lia|eauto|lia].
    + econstructor; [lw|eauto|lia].
  - done_.
  - (* select_once, scanning *)
    eapply sim_on_ok; [eapply IHsk; [eauto|econstructor; eauto|lia]|intros; constructor; lia|].
    intros R' h' s' [ev|] HR Hi' Hw'; [|done_].
    assert (R' !! l = Some r) as Hl by (eapply lookup_weaken; eauto).
    destruct (include direct level && matches m ev).
    + eapply (sim_build _ _ _ (K * q) _ _ (2 + r)); [apply grows_build; auto|auto| |].
      * econstructor; [econstructor; eauto|lia].
      * intros R2 h2 s2 HR2 Hi2 Hw2. apply sim_done; auto.
        eapply W_once_active; [lw|lia|eauto|lia].
    + destruct (adjust level ev); [|done_]. apply sim_done; auto. econstructor; [lw|eauto|lia].
  - eapply sim_on_ok; [eapply IHne; eauto; lia|intros; constructor; lia|].
    intros R' h' s' [ev|] HR Hi' Hw'; apply sim_done; auto.
    + eapply W_once_active; [lw|lia|eauto|lia].
    + econstructor; [lw|lia].
  - eapply sim_on_ok; [eapply IHne; [eauto|econstructor; eauto|lia]|intros; constructor; lia|].
    intros R' h' s' [ev|] HR Hi' Hw'; [|done_]. apply sim_done; auto. econstructor; [lw|lia].
  - done_.
  - (* contents, open *)
    eapply (sim_on_ok _ (2 + x)); [eapply IHsk; [eauto|econstructor; eauto|lia]|intros; constructor; lia|].
    intros R' h' s' [ev|] HR Hi' Hw'; [|done_]. destruct ev; try done_.
    assert (W R' (SPeek s' None) (4 + x)) as Hp by (econstructor; [exact Hw'|lia]).
    destruct (inv_fresh _ _ _ _ Hi' Hp) as (HR2 & Hl2 & Hi2).
    set (l := fresh_loc h') in *. set (R2 := <[l := 4 + x]> R') in *.
    intros h3 s3 r3 E.
    destruct (build_content b _ (SCurrentContent (Some (tag, l, 0)))) as [| |h4 s4] eqn:Eb; try discriminate.
    injection E as <- <- <-. split; [reflexivity|].
    assert (WB R2 b q) as Hb by (eapply WB_weaken; [eassumption|etransitivity; eassumption]).
    assert (W R2 (SCurrentContent (Some (tag, l, 0))) (6 + x)) as Hcur by (econstructor; [exact Hl2|lia]).
    destruct (grows_content _ _ _ Hb _ _ _ _ _ Hi2 Hcur Eb) as (R4 & HR4 & Hi4 & Hw4).
    exists R4. split; [etransitivity; eauto|]. split; [auto|].
    eapply W_contents_content; [eapply lookup_weaken; eauto|lia|eauto|lia].
  - (* contents, content *)
    eapply sim_on_ok; [eapply IHne; eauto; lia|intros; constructor; lia|].
    intros R' h' s' [ev|] HR Hi' Hw'; apply sim_done; auto.
    + eapply W_contents_content; [lw|lia|eauto|lia].
    + econstructor; [lw|lia].
  - eapply sim_on_ok; [eapply IHsk; [eauto|econstructor; eauto|lia]|intros; constructor; lia|].
    intros R' h' s' [ev|] HR Hi' Hw'; [|done_]. destruct ev; try done_.
    destruct (ident_eqb _ tag); done_.
  - done_.
  - (* current contents *)
    assert (forall R', R ⊆ R' -> forall h', Inv R' h' -> Sim R' d
      (on_ok (ne (run n) h' (SShared l)) (fun _ => SCurrentContent None) (fun h0 _ r0 =>
         match r0 with
         | Some ev => match adjust level ev with
                      | inl level => emit h0 (SCurrentContent (Some (tag, l, level))) ev
                      | inr _ => fail h0 (SCurrentContent None) (missing_close tag)
                      end
         | None => fail h0 (SCurrentContent None) (missing_close tag)
         end))
      (on_ok (ne (deep loops d') h' (SShared l)) (fun _ => SCurrentContent None) (fun h0 _ r0 =>
         match r0 with
         | Some ev => match adjust level ev with
                      | inl level => emit h0 (SCurrentContent (Some (tag, l, level))) ev
                      | inr _ => fail h0 (SCurrentContent None) (missing_close tag)
                      end
         | None => fail h0 (SCurrentContent None) (missing_close tag)
         end))) as Hnext.
    { intros R' HR h' Hi'. assert (R' !! l = Some r) as Hl by lw.
      eapply sim_on_ok; [eapply IHne; [eauto|econstructor; eauto|lia]|intros; constructor; lia|].
      intros R2 h2 s2 [ev|] HR2 Hi2 Hw2; [|done_]. destruct (adjust level ev); [|done_].
      apply sim_done; auto. econstructor; [lw|lia]. }
    destruct (negb (level =? 0)); [apply Hnext; auto|].
    eapply (sim_on_ok _ (S r)); [|intros; constructor; lia|].
    + apply sim_cell; auto. intros. apply sim_peek; auto. lia.
    + intros R' h' s' [ev|] HR Hi' Hw'; [|done_].
      destruct (is_closing_tag_for ev tag); [done_|]. now apply Hnext.
  - eapply sim_bind; [eapply IHne; eauto; lia|]. intros. done_.
  - done_.
  - eapply sim_co; [eauto|eauto|lia|]. intros R' h' [evs|e] HR Hi'; [|done_].
    destruct (f evs); done_.
  - eapply sim_passthrough; [eapply IHne; [eauto|apply (W_template _ _ _ 1); lia|lia]|intros; constructor; lia|].
    intros R' s' Hw'. destruct s'; first [constructor; lia|eapply W_mono; [exact Hw'|lia]].
  - done_.
  - eapply sim_co; [eauto|eauto|lia|]. intros R' h' [evs|e] HR Hi'; done_.
  - destruct bs as [|p bs]; [done_|].
    eapply (sim_build _ _ _ (K * q) _ _ 1); [apply grows_build; auto with datatypes|auto|constructor; lia|].
    intros R2 h2 s2 HR2 Hi2 Hw2. apply sim_done; auto.
    eapply (W_repeat_emit _ _ _ _ _ q); [eauto|auto with datatypes|lia|lia].
  - eapply sim_on_ok; [eapply IHne; eauto; lia|intros; constructor; lia|].
    intros R' h' s' [ev|] HR Hi' Hw'; done_.
  - done_.
  - destruct bs as [|p0 bs].
    + eapply (sim_build _ _ _ (K * q) _ _ x); [apply grows_build; auto|auto|auto|].
      intros R2 h2 s2 HR2 Hi2 Hw2. done_.
    + apply sim_done; auto. apply (W_roe_repeat _ _ (11 + x + K * q)); [|lia]. destruct contents.
      * eapply W_contents_open; [eauto|constructor; eauto|lia|lia|lia].
      * eapply W_repeat_collect; [eauto|eauto|lia|lia].
  - eapply sim_passthrough; [eapply IHne; eauto; lia| |]; intros; econstructor; eauto; lia.
  - eapply sim_passthrough; [eapply IHne; eauto; lia| |]; intros; econstructor; eauto; lia.
  - done_.
  - eapply sim_on_ok; [eapply IHsk; eauto; lia|intros; constructor; lia|].
    intros R' h' s' [[]|] HR Hi' Hw'; done_.
  - eapply sim_passthrough; [eapply IHne; eauto; lia| |]; intros; econstructor; eauto; lia.
Qed.
End step.

Lemma sim_all n : forall loops, n <= loops ->
  (forall d d' R h s, Inv R h -> W R s d -> d <= d' ->
     Sim R d (ne (run n) h s) (ne (deep loops d') h s)) /\
  (forall k d d' R h s, n <= k -> Inv R h -> W R s d -> d <= d' ->
     Sim R d (sk (run n) h s) (sk_loop (ne (deep loops d')) k h s)) /\
  (forall k d d' R h s, n <= k -> Inv R h -> W R s d -> d <= d' ->
     Sim R (2 + d) (dr (run n) h s) (dr_loop (ne (deep loops d')) k h s)) /\
  (forall k d d' R h s acc, n <= k -> Inv R h -> W R s d -> S d <= d' ->
     forall h' r, co (run n) h s acc = Done h' r ->
     co_loop (sk (deep loops d')) k h s acc = Done h' r /\ exists R', R ⊆ R' /\ Inv R' h').
Proof.
  induction n as [|n IH]; intros loops Hl.
  { repeat split; intros; try (intros ? ? ?; discriminate); discriminate. }
  destruct (IH loops ltac:(lia)) as (IHne & IHsk & IHdr & IHco).
  assert (forall d d' R h s, Inv R h -> W R s d -> S d <= d' ->
            Sim R d (sk (run n) h s) (sk (deep loops d') h s)) as IHsk'.
  { intros d [|d'] R h s Hi Hw Hd; [lia|]. apply IHsk; auto; lia. }
  split; [|split; [|split]].
  - intros d [|d'] R h s Hi Hw Hd; [apply W_pos in Hw; lia|]. apply sim_ne; auto.
    + intros x [|x'] R' h' s' Hi' Hw' Hx; [lia|]. apply IHdr; auto; lia.
    + intros x [|x'] R' h' s' acc Hi' Hw' Hx; [lia|]. apply (IHco loops x x'); auto; lia.
  - intros [|k] d d' R h s Hk Hi Hw Hd; [lia|]. cbn [run sk]. unfold sk_body. cbn [sk_loop].
    eapply sim_bind; [apply IHne; eauto|]. intros R' h' s' [[[]|]|] HR Hi' Hw'; try now apply sim_done.
    apply IHsk; auto; lia.
  - intros [|k] d d' R h s Hk Hi Hw Hd; [lia|]. cbn [run dr]. unfold dr_body. cbn [dr_loop].
    eapply sim_bind; [apply IHne; eauto|]. intros R' h' s' [[|]|] HR Hi' Hw'.
    + apply IHdr; auto; lia.
    + apply sim_done; auto. econstructor; eauto.
    + apply sim_done; auto. econstructor; eauto.
  - intros [|k] d d' R h s acc Hk Hi Hw Hd h' r E; [lia|]. cbn [run co] in E. unfold co_body in E.
    cbn [co_loop]. destruct (sk (run n) h s) as [| |h1 [s1 r1]] eqn:Es; try discriminate. cbn [obind] in E.
    destruct (IHsk' d d' R h s Hi Hw Hd _ _ _ Es) as (-> & R1 & HR1 & Hi1 & Hw1). cbn [obind].
    destruct r1 as [[ev|]|e].
    + destruct (IHco k d d' R1 h1 s1 (acc ++ [ev]) ltac:(lia) Hi1 Hw1 Hd _ _ E) as (-> & R2 & HR2 & Hi2).
      split; [auto|]. exists R2. split; [etransitivity; eauto|auto].
    + injection E as <- <-. eauto.
    + injection E as <- <-. eauto.
Qed.

(** ** Transformations *)

Lemma transform_deep_done p d : Depth p d -> forall n evs h r, transform n evs p = Done h r ->
  forall loops room, n <= loops -> K * d + 3 <= room -> transform_deep loops room evs p = Done h r.
Proof.
  intros Hp n evs h r E loops room Hl Hr. unfold transform, transform_deep in *.
  destruct (build p ∅ (STemplate evs 0)) as [| |h1 s1] eqn:Eb; try discriminate. cbn [obind] in *.
  destruct (grows_build p d Hp ∅ ∅ (STemplate evs 0) 1 h1 s1 inv_empty) as (R & _ & Hi & Hw);
    [constructor; lia|exact Eb|].
  destruct (sim_all n loops Hl) as (_ & _ & _ & Hco). destruct room as [|room]; [lia|]. cbn [deep co].
  apply (Hco loops (1 + K * d) room R h1 s1 [] ltac:(lia) Hi Hw ltac:(lia) h r E).
Qed.

Lemma depth_bounded p d : Depth p d -> forall evs,
  exists r loops0, Gives evs p r /\
    forall loops room, loops0 <= loops -> K * d + 3 <= room ->
    exists h, transform_deep loops room evs p = Done h r.
Proof.
  intros Hp evs. destruct (transform_gives evs p) as [r (n & h & E)].
  exists r, n. split; [now exists n, h|]. intros loops room Hl Hr. exists h.
  eapply transform_deep_done; eauto.
Qed.

(** ** Counting separately changes no result *)

Lemma le_run_more n m : n <= m -> le_engine (run n) (run m).
Proof.
  induction 1 as [|m _ IH]; [repeat split; intros; apply le_refl|].
  pose proof (le_run m) as (A1 & A2 & A3 & A4). destruct IH as (B1 & B2 & B3 & B4).
  split; [|split; [|split]]; intros; eapply le_trans; eauto.
Qed.

Lemma deep_run loops d : exists n, le_engine (deep loops d) (run n).
Proof.
  induction d as [|d [n IH]]; [exists 0; repeat split; intros; apply le_refl|].
  assert (forall k h s, le_out (sk_loop (ne (deep loops d)) k h s) (sk (run (n + k)) h s)) as Hsk.
  { induction k as [|k IHk]; intros h s; [now left|]. cbn [sk_loop].
    replace (n + S k) with (S (n + k)) by lia. cbn [run sk]. unfold sk_body. apply le_obind.
    - eapply le_trans; [apply IH|]. apply (le_run_more n (n + k)). lia.
    - intros h1 [s1 [[[]|]|]]; auto using le_refl. }
  assert (forall k h s, le_out (dr_loop (ne (deep loops d)) k h s) (dr (run (n + k)) h s)) as Hdr.
  { induction k as [|k IHk]; intros h s; [now left|]. cbn [dr_loop].
    replace (n + S k) with (S (n + k)) by lia. cbn [run dr]. unfold dr_body. apply le_obind.
    - eapply le_trans; [apply IH|]. apply (le_run_more n (n + k)). lia.
    - intros h1 [s1 [[|]|]]; auto using le_refl. }
  assert (forall k h s acc, le_out (co_loop (sk (deep loops d)) k h s acc) (co (run (n + k)) h s acc)) as Hco.
  { induction k as [|k IHk]; intros h s acc; [now left|]. cbn [co_loop].
    replace (n + S k) with (S (n + k)) by lia. cbn [run co]. unfold co_body. apply le_obind.
    - eapply le_trans; [apply IH|]. apply (le_run_more n (n + k)). lia.
    - intros h1 [s1 [[|]|]]; auto using le_refl. }
  exists (S (n + loops)). pose proof (le_run (n + loops)) as (R1 & R2 & R3 & R4).
  cbn [deep]. split; [|split; [|split]]; cbn [ne sk dr co]; intros.
  - apply (le_trans _ (ne_body (run n) h s)); [now apply le_ne_body|]. apply le_ne_body, le_run_more. lia.
  - eapply le_trans; [apply Hsk|]. apply R2.
  - eapply le_trans; [apply Hdr|]. apply R3.
  - eapply le_trans; [apply Hco|]. apply R4.
Qed.

Lemma deep_gives loops d evs p h r : transform_deep loops d evs p = Done h r -> Gives evs p r.
Proof.
  unfold transform_deep, Gives, transform. intros E.
  destruct (build p ∅ (STemplate evs 0)) as [| |h1 s1]; try discriminate. cbn [obind] in *.
  destruct (deep_run loops d) as [n (_ & _ & _ & H)]. exists n, h.
  destruct (H h1 s1 []) as [E'|E']; congruence.
Qed.
