(** Proofs for C76: what a transformation keeps does not depend on the document. *)
From Coq Require Import String List Lia.
From stdpp Require Import gmap.
From Verif Require Import Text Event Input Parse Selector Machine.
From Verif Require Import SpecTransform SpecDepth SpecEnd SpecMemory StreamBase.
Local Open Scope nat_scope.

Notation P q := (16 ^ q).
Lemma P_pos q : 1 <= P q. Proof. induction q; cbn [Nat.pow]; lia. Qed.
Lemma P_lin q : q < P q. Proof. apply Nat.pow_gt_lin_r. lia. Qed.
Lemma P_mul q x : 8 <= x -> 8 * P q <= P q * x /\ x <= P q * x /\ q < P q /\ 1 <= P q.
Proof. intros H. pose proof (P_pos q). pose proof (P_lin q). repeat split; try lia; nia. Qed.

Section Count.
Context (count : list event -> nat).

Definition Small : Prop := forall evs, count evs <= 1.
Definition Ok (p : pipeline) (q : nat) : Prop := Depth p q /\ (Small \/ Streaming p).
Definition OkMany (bs : list pipeline) (q : nat) : Prop := forall p, In p bs -> Ok p q.

(** ** How much a stream keeps now and later *)

Notation ranks := (gmap loc nat).
Inductive M (R : ranks) : strm -> nat -> Prop :=
| M_template evs i d : 8 <= d -> M R (STemplate evs i) d
| M_user evs e d : 8 <= d -> M R (SUser evs e) d
| M_content c d : 8 <= d -> M R (SContent c) d
| M_shared l r d : R !! l = Some r -> 8 <= r -> S r <= d -> M R (SShared l) d
| M_fallible_none d : 8 <= d -> M R (SFallible None) d
| M_fallible_err e d : 8 <= d -> M R (SFallible (Some (FStart (inr e)))) d
| M_fallible_start s x d : M R s x -> S x <= d -> M R (SFallible (Some (FStart (inl s)))) d
| M_fallible_emit s x d : M R s x -> S x <= d -> M R (SFallible (Some (FEmit s))) d
| M_expand_none d : 8 <= d -> M R (SExpand None) d
| M_expand_start s x d : M R s x -> S x <= d -> M R (SExpand (Some (XStart s))) d
| M_expand_emit s x d : M R s x -> S x <= d -> M R (SExpand (Some (XEmitStream s))) d
| M_expand_close tag d : 8 <= d -> M R (SExpand (Some (XEmitClosingTag tag))) d
| M_peek s ev x d : M R s x -> 2 + x <= d -> M R (SPeek s ev) d
| M_combine_none d : 8 <= d -> M R (SCombine None) d
| M_combine_first s1 s2 x y d : M R s1 x -> M R s2 y -> S (x + y) <= d ->
    M R (SCombine (Some (CmbFirst s1 s2))) d
| M_combine_second s2 y d : M R s2 y -> S y <= d -> M R (SCombine (Some (CmbSecond s2))) d
| M_remove s x d : M R s x -> S x <= d -> M R (SRemove s) d
| M_single_none d : 8 <= d -> M R (SSingle None) d
| M_single_start ev s x d : M R s x -> 2 + x <= d -> M R (SSingle (Some (SEStart ev s))) d
| M_single_until tag s level x d : M R s x -> S x <= d ->
    M R (SSingle (Some (SEUntilClose tag s level))) d
| M_select_none l r m b calls direct d : R !! l = Some r -> 8 <= r -> S r <= d ->
    M R (SSelect l m b calls direct None) d
| M_select_scan l r q m b calls direct level d : R !! l = Some r -> 8 <= r ->
    (forall k, Ok (b k) q) -> 1 + r + P q * (r + 3) <= d ->
    M R (SSelect l m b calls direct (Some (SelScanning level))) d
| M_select_active l r q m b calls direct level s x d : R !! l = Some r -> 8 <= r ->
    (forall k, Ok (b k) q) -> 1 + r + P q * (r + 3) <= d -> M R s x -> 1 + r + x <= d ->
    M R (SSelect l m b calls direct (Some (SelActive level s))) d
| M_once_none l r d : R !! l = Some r -> 8 <= r -> S r <= d -> M R (SSelectOnce l None) d
| M_once_scan l r q m p direct level d : R !! l = Some r -> 8 <= r -> Ok p q ->
    1 + r + P q * (r + 3) <= d -> M R (SSelectOnce l (Some (SelOScanning m p direct level))) d
| M_once_active l r s x d : R !! l = Some r -> 8 <= r -> M R s x -> 1 + r + x <= d ->
    M R (SSelectOnce l (Some (SelOActive s))) d
| M_once_pass l r d : R !! l = Some r -> 8 <= r -> S r <= d -> M R (SSelectOnce l (Some SelOPassthrough)) d
| M_contents_none d : 8 <= d -> M R (SSelectContent None) d
| M_contents_open s x b y q d : M R s x -> MB R b y q ->
    4 + x + y + 8 * P q * (x + 4) <= d -> M R (SSelectContent (Some (SCOpen s b))) d
| M_contents_content l r s tag x d : R !! l = Some r -> 8 <= r -> M R s x -> 1 + r + x <= d ->
    M R (SSelectContent (Some (SCContent l s tag))) d
| M_contents_close l r tag d : R !! l = Some r -> 8 <= r -> S r <= d ->
    M R (SSelectContent (Some (SCClose l tag))) d
| M_current_none d : 8 <= d -> M R (SCurrentContent None) d
| M_current tag l r level d : R !! l = Some r -> 8 <= r -> S r <= d ->
    M R (SCurrentContent (Some (tag, l, level))) d
| M_either first s x d : M R s x -> S x <= d -> M R (SApplyEither first s) d
| M_apply_none d : 8 <= d -> M R (STemplateApply None) d
| M_apply_collect s f x d : Small -> M R s x -> S x <= d -> M R (STemplateApply (Some (TACollect s f))) d
| M_apply_emit evs i d : Small -> 8 <= d -> M R (STemplateApply (Some (TAEmit evs i))) d
| M_repeat_none d : 8 <= d -> M R (SRepeat None) d
| M_repeat_collect s bs x q d : Small -> M R s x -> OkMany bs q -> S x <= d ->
    2 + P q * 8 <= d -> M R (SRepeat (Some (RCollect s bs))) d
| M_repeat_next evs bs q d : Small -> OkMany bs q -> 2 + P q * 8 <= d ->
    M R (SRepeat (Some (RNext evs bs))) d
| M_repeat_emit evs s bs x q d : Small -> M R s x -> OkMany bs q -> 2 + x <= d ->
    2 + P q * 8 <= d -> M R (SRepeat (Some (REmit evs s bs))) d
| M_roe_none d : 8 <= d -> M R (SRepeatOrElse None) d
| M_roe_start contents s bs p x q d : Small -> M R s x -> OkMany bs q -> Ok p q ->
    5 + x + 8 * P q * (x + 4) <= d -> M R (SRepeatOrElse (Some (ROEStart contents s bs p))) d
| M_roe_fallback s x d : M R s x -> S x <= d -> M R (SRepeatOrElse (Some (ROEFallback s))) d
| M_roe_repeat s x d : M R s x -> S x <= d -> M R (SRepeatOrElse (Some (ROERepeat s))) d
| M_attr_none d : 8 <= d -> M R (SAttr None) d
| M_attr_start s c x d : M R s x -> S x <= d -> M R (SAttr (Some (AStart s c))) d
| M_attr_emit s x d : M R s x -> S x <= d -> M R (SAttr (Some (AEmit s))) d
(** [MB R b y q]: the builder keeps [y], and makes of a stream that keeps [x] one that keeps
    [y + 8 * P q * x]. *)
with MB (R : ranks) : content_builder -> nat -> nat -> Prop :=
| MB_user p q : Ok p q -> MB R (CBUser p) 0 q
| MB_remove : MB R CBRemove 0 0
| MB_replace n y : M R n y -> MB R (CBReplace n) y 0
| MB_append n y : M R n y -> MB R (CBAppend n) y 0
| MB_prepend n y : M R n y -> MB R (CBPrepend n) y 0
| MB_select direct m b q : (forall k, Ok (b k) q) -> MB R (CBSelect direct m b) 0 q
| MB_once direct m p q : Ok p q -> MB R (CBSelectOnce direct m p) 0 q
| MB_repeat bs q : Small -> OkMany bs q -> MB R (CBRepeat bs) 0 q.
Scheme M_ind' := Induction for M Sort Prop with MB_ind' := Induction for MB Sort Prop.

Lemma M_pos R s d : M R s d -> 8 <= d.
Proof.
  induction 1; try lia; repeat match goal with
    | H : context [P ?q] |- _ => lazymatch goal with
      | _ : 1 <= P q |- _ => fail | _ => pose proof (P_pos q) end end; nia.
Qed.
Lemma M_mono R s d : M R s d -> forall d', d <= d' -> M R s d'.
Proof. inversion 1; subst; intros d'' Hd; econstructor; eauto; try lia. Qed.
Lemma M_weaken R s d : M R s d -> forall R', R ⊆ R' -> M R' s d.
Proof.
  intros H R' HR. revert s d H.
  apply (M_ind' R (fun s d _ => M R' s d) (fun b y q _ => MB R' b y q)); intros;
    econstructor; eauto; try lia; eapply lookup_weaken; eauto.
Qed.
Lemma MB_weaken R b y q : MB R b y q -> forall R', R ⊆ R' -> MB R' b y q.
Proof. intros H R' HR. destruct H; econstructor; eauto using M_weaken. Qed.

(** The heap holds streams that keep no more than [R] says. *)
Definition Inv (R : ranks) (h : heap) : Prop :=
  (forall l, h !! l = None -> R !! l = None) /\
  (forall l s, h !! l = Some (Cell s) -> exists r, R !! l = Some r /\ M R s r).

Lemma inv_empty : Inv ∅ ∅.
Proof. split; [intros l _; apply lookup_empty|intros l s H; now rewrite lookup_empty in H]. Qed.

Lemma inv_fresh R h s x : Inv R h -> M R s x ->
  let l := fresh_loc h in let R' := <[l := x]> R in
  R ⊆ R' /\ R' !! l = Some x /\ Inv R' (<[l := Cell s]> h).
Proof.
  intros [Hn Hc] Hs. cbn zeta. pose proof (fresh_loc_none h) as Hl.
  assert (R ⊆ <[fresh_loc h := x]> R) as Hsub by (apply insert_subseteq; auto).
  split; [exact Hsub|]. split; [apply lookup_insert|]. split.
  - intros l H. apply lookup_insert_None in H as [H H']. rewrite lookup_insert_ne by auto. auto.
  - intros l s' H. apply lookup_insert_Some in H as [[<- [= <-]]|[Hne H]].
    + exists x. split; [apply lookup_insert|]. eapply M_weaken; eauto.
    + apply Hc in H as (r & Hr & Hw). exists r. rewrite lookup_insert_ne by auto.
      split; [exact Hr|]. eapply M_weaken; eauto.
Qed.
Lemma inv_borrow R h l : Inv R h -> is_Some (h !! l) -> Inv R (<[l := Borrowed]> h).
Proof.
  intros [Hn Hc] Hl. split.
  - intros l' H. apply lookup_insert_None in H as [H _]. auto.
  - intros l' s H. apply lookup_insert_Some in H as [[_ [=]]|[Hne H]]. auto.
Qed.
Lemma inv_return R h l s r : Inv R h -> R !! l = Some r -> M R s r -> Inv R (<[l := Cell s]> h).
Proof.
  intros [Hn Hc] Hl Hs. split.
  - intros l' H. apply lookup_insert_None in H as [H _]. auto.
  - intros l' s' H. apply lookup_insert_Some in H as [[<- [= <-]]|[Hne H]]; eauto.
Qed.

(** ** What is kept now *)

Scheme Keeps_ind' := Induction for Keeps Sort Prop with KeepsCell_ind' := Induction for KeepsCell Sort Prop
  with KeepsBuilder_ind' := Induction for KeepsBuilder Sort Prop.

Definition Within (h : heap) (s : strm) (d : nat) : Prop := exists n, Keeps count h s n /\ n <= d.
Lemma within R h s d : Inv R h -> M R s d -> Within h s d.
Proof.
  intros [Hn Hc]. revert s. induction d as [d IHd] using lt_wf_ind.
  assert (forall l r, R !! l = Some r -> r < d -> exists n, KeepsCell count h l n /\ n <= r) as Hcell.
  { intros l r Hl Hr. destruct (h !! l) as [[s|]|] eqn:E.
    - destruct (Hc l s E) as (r' & Hr' & Hs). rewrite Hl in Hr'. injection Hr' as <-.
      destruct (IHd r Hr s Hs) as (n & Hk & Hle). exists n. split; [econstructor; eauto|auto].
    - exists 0. split; [now constructor|lia].
    - apply Hn in E. congruence. }
  assert (forall s x, M R s x -> x < d -> Within h s x) as IH by eauto.
  assert (forall b y q, MB R b y q -> y < d -> exists n, KeepsBuilder count h b n /\ n <= y) as Hb.
  { intros b y q Hb Hy. destruct Hb; try (by exists 0; split; [constructor|lia]).
    all: destruct (IH _ _ H Hy) as (k & Hk & ?); exists k; split; [econstructor; eauto|auto]. }
  clear IHd. intros s Hs.
  assert (8 <= d) by (eapply M_pos; eauto).
  inversion Hs; subst;
  repeat match goal with
  | H : M R ?s ?x |- _ => lazymatch x with d => fail | _ =>
      pose proof (M_pos _ _ _ H); apply IH in H; [destruct H as (? & ? & ?)|lia] end
  | H : MB R _ ?y ?q |- _ => apply Hb in H; [destruct H as (? & ? & ?)|lia]
  | H : R !! _ = Some _ |- _ => apply Hcell in H; [destruct H as (? & ? & ?)|lia]
  end; try (eexists; split; [econstructor; eauto|]; lia).
  - destruct ev; eexists; (split; [econstructor; eauto|lia]).
  - eexists. split; [constructor|]. pose proof (H0 evs). lia.
  - eexists. split; [constructor|]. pose proof (H0 evs). pose proof (P_pos q). lia.
  - eexists. split; [econstructor; eauto|]. pose proof (H0 evs). lia.
Qed.

(** ** Building *)

Definition Grows (bld : heap -> strm -> out strm) (f : nat -> nat) : Prop :=
  forall R h s x h' s', Inv R h -> M R s x -> bld h s = Done h' s' ->
  exists R', R ⊆ R' /\ Inv R' h' /\ M R' s' (f x).

Lemma grows_stream (g : strm -> strm) f :
  (forall R s x, M R s x -> 8 <= x -> M R (g s) (f x)) -> Grows (fun h s => Done h (g s)) f.
Proof. intros H R h s x h' s' Hi Hs [= <- <-]. exists R. eauto using M_pos. Qed.

Lemma grows_mono bld f f' : Grows bld f -> (forall x, 8 <= x -> f x <= f' x) -> Grows bld f'.
Proof.
  intros H Hq R h s x h' s' Hi Hs E. destruct (H R h s x h' s' Hi Hs E) as (R' & ? & ? & ?).
  exists R'. split; [auto|]. split; [auto|]. eapply M_mono; eauto using M_pos.
Qed.

Lemma into_stream_within R c : M R (into_stream c) (8 + nesting c).
Proof.
  revert c. fix IH 1. intros [| | | | | |[c|e]]; cbn [into_stream nesting]; try (constructor; lia).
  econstructor; [apply IH|]. lia.
Qed.

Lemma grows_select m b direct q : (forall k, Ok (b k) q) ->
  Grows (fun h s => let '(h, s) := select_new h s m b direct in Done h s)
    (fun x => 1 + x + P q * (x + 3)).
Proof.
  intros Hb R h s x h' s' Hi Hs [= <- <-]. pose proof (M_pos _ _ _ Hs).
  destruct (inv_fresh R h s x Hi Hs) as (H1 & H2 & H3). eexists. split; [exact H1|].
  split; [exact H3|]. econstructor; eauto.
Qed.
Lemma grows_once m p direct q : Ok p q ->
  Grows (fun h s => let '(h, s) := select_once_new h s m p direct in Done h s)
    (fun x => 1 + x + P q * (x + 3)).
Proof.
  intros Hb R h s x h' s' Hi Hs [= <- <-]. pose proof (M_pos _ _ _ Hs).
  destruct (inv_fresh R h s x Hi Hs) as (H1 & H2 & H3). eexists. split; [exact H1|].
  split; [exact H3|]. econstructor; eauto.
Qed.

Lemma grows_error err f : (forall x, 8 <= x -> 8 <= f x) ->
  Grows (fun h s => Done h (fallible_new (inr err))) f.
Proof. intros Hq. apply grows_stream. intros. constructor. auto. Qed.

Lemma grows_attr name c : Grows (fun h s => attr_new h s name c) (fun x => 2 + x).
Proof.
  intros R h s x h' s' Hi Hs E. pose proof (M_pos _ _ _ Hs). unfold attr_new in E. destruct name as [i|e].
  - destruct (c i); [|discriminate]. injection E as <- <-. exists R. split; [auto|]. split; [auto|].
    econstructor; [econstructor; [eauto|apply Nat.le_refl]|]. lia.
  - injection E as <- <-. exists R. split; [auto|]. split; [auto|]. constructor. lia.
Qed.

Lemma grows_fallible bld f : Grows bld f ->
  Grows (fun h s => obind (bld h s) (fun h s => Done h (fallible_new (inl s)))) (fun x => S (f x)).
Proof.
  intros H R h s x h' s' Hi Hs E. destruct (bld h s) as [| |h1 s1] eqn:Eb; try discriminate.
  injection E as <- <-. destruct (H _ _ _ _ _ _ Hi Hs Eb) as (R' & ? & ? & ?). exists R'.
  split; [auto|]. split; [auto|]. econstructor; eauto.
Qed.

Lemma streaming_sub o p q : Streaming (o :: p) -> Sub o q -> Streaming q.
Proof. intros H Hs o' Ho. apply H. eapply Occurs_deeper; eauto. now left. Qed.
Lemma streaming_tail o p : Streaming (o :: p) -> Streaming p.
Proof.
  intros H o' Ho. apply H. clear H. inversion Ho; subst; [constructor; now right|].
  eapply Occurs_deeper; eauto. now right.
Qed.

Lemma mul_add a b c : a * (b + c) = a * b + a * c. Proof. lia. Qed.
Ltac pw := intros; cbn [Nat.pow] in *; repeat match goal with
  | H : 8 <= ?x |- context [P ?q] => lazymatch goal with
     | _ : 8 * P q <= P q * x |- _ => fail
     | _ => pose proof (P_mul q x H) as (? & ? & ? & ?)
     end end; cbn [Nat.pow Nat.add] in *; lia.

Lemma grows_build p d : Ok p d -> Grows (build p) (fun x => P d * x).
Proof.
  intros [H Hf]. revert Hf. induction H as [d|o p d d' Hs IHs Hc _ IH]; intros Hf.
  { intros R h s x h' s' Hi Hw [= <- <-]. exists R. split; [auto|]. split; [auto|]. eapply M_mono; eauto.
    apply M_pos in Hw. pw. }
  assert (Small \/ Streaming p) as Hfp by (destruct Hf; eauto using streaming_tail).
  assert (forall q, Sub o q -> Ok q d) as Hok by (intros q Hq; split; [eauto|]; destruct Hf; eauto using streaming_sub).
  assert (forall q, Sub o q -> Grows (build q) (fun x => P d * x)) as Hg.
  { intros q Hq. apply IHs; auto. apply (Hok q Hq). }
  assert (Collects o -> Small) as Hsmall.
  { intros Hcol. destruct Hf as [Hf|Hf]; [auto|]. exfalso. apply (Hf o); [constructor; now left|auto]. }
  specialize (IH Hfp). clear Hs IHs Hf Hfp.
  assert (Grows (build_op o) (fun x => P (S d) * x)) as Ho.
  2:{ intros R h s x h' s' Hi Hw E. cbn [build] in E.
      destruct (build_op o h s) as [| |h1 s1] eqn:E1; try discriminate. cbn [obind] in E.
      destruct (Ho _ _ _ _ _ _ Hi Hw E1) as (R1 & HR1 & Hi1 & Hw1).
      destruct (IH _ _ _ _ _ _ Hi1 Hw1 E) as (R2 & HR2 & Hi2 & Hw2).
      exists R2. split; [etransitivity; eauto|]. split; [auto|]. eapply M_mono; eauto.
      replace (P (S (d + d'))) with (P d' * P (S d)); [lia|]. rewrite <- Nat.pow_add_r. f_equal. lia. }
  assert (forall c, op_content o = Some c -> forall R, M R (into_stream c) (8 + d)) as Hin.
  { intros c Ec R. eapply M_mono; [apply into_stream_within|]. apply Hc in Ec. lia. }
  clear Hc IH.
  destruct o; cbn [op_content] in Hin; cbn [Collects] in Hsmall; try specialize (Hsmall I);
    try specialize (Hin _ eq_refl); try specialize (Hok _ eq_refl); try specialize (Hg _ eq_refl);
    try (eapply grows_mono; [apply grows_attr|pw]).
  - (* apply *) eapply grows_mono; [exact Hg|pw].
  - apply grows_stream. intros. eapply M_mono; eauto. pw.
  - apply grows_stream. intros. eapply M_mono; eauto. pw.
  - (* either *)
    intros R h s x h' s' Hi Hw E. change (obind (build p0 h s) (fun h s => Done h (SApplyEither first s)) = Done h' s') in E.
    destruct (build p0 h s) as [| |h1 s1] eqn:E1; try discriminate. injection E as <- <-.
    destruct (Hg _ _ _ _ _ _ Hi Hw E1) as (R1 & HR1 & Hi1 & Hw1). apply M_pos in Hw.
    exists R1. split; [auto|]. split; [auto|]. econstructor; eauto. pw.
  - apply grows_stream. intros. econstructor; eauto. pw.
  - (* select *)
    destruct sel as [m|e]; [|apply grows_error; pw].
    apply (grows_mono _ (fun x => S (1 + x + P d * (x + 3)))); [|pw].
    change (Grows (fun h s => obind (let '(h, s) := select_new h s m b direct in Done h s)
                                (fun h s => Done h (fallible_new (inl s)))) (fun x => S (1 + x + P d * (x + 3)))).
    apply (grows_fallible _ (fun x => 1 + x + P d * (x + 3))), grows_select. intros k. apply Hok. now exists k.
  - destruct sel as [m|e]; [|apply grows_error; pw].
    apply (grows_mono _ (fun x => S (1 + x + P d * (x + 3)))); [|pw].
    change (Grows (fun h s => obind (let '(h, s) := select_once_new h s m p0 direct in Done h s)
                                (fun h s => Done h (fallible_new (inl s)))) (fun x => S (1 + x + P d * (x + 3)))).
    now apply (grows_fallible _ (fun x => 1 + x + P d * (x + 3))), grows_once.
  - apply grows_stream. intros. econstructor; eauto. pw.
  - apply grows_stream. intros. econstructor; [apply Hin|eauto|pw].
  - apply grows_stream. intros. econstructor; [eauto|apply Hin|pw].
  - apply grows_stream. intros. econstructor; [apply Hin|econstructor; [eauto|apply Nat.le_refl]|pw].
  - apply grows_stream. intros R s x Hw Hx. eapply (M_repeat_collect _ _ _ _ d); [auto|eauto| |pw|pw]. exact Hok.
  - apply grows_stream. intros R s x Hw Hx. apply (M_roe_start _ _ _ _ _ x d); [auto|auto| | |pw].
    + intros q Hq. apply Hok. now left.
    + apply Hok. now right.
  - apply grows_stream. intros R s x Hw Hx.
    eapply M_contents_open; [eauto|constructor; exact Hok|pw].
  - destruct sel as [m|e]; [|apply grows_error; pw].
    apply grows_stream. intros R s x Hw Hx. econstructor; [eapply M_contents_open|].
    + eauto.
    + apply MB_select. intros k. apply Hok. now exists k.
    + apply Nat.le_refl.
    + pw.
  - destruct sel as [m|e]; [|apply grows_error; pw].
    apply grows_stream. intros R s x Hw Hx. econstructor; [eapply M_contents_open|].
    + eauto.
    + apply MB_once. exact Hok.
    + apply Nat.le_refl.
    + pw.
  - apply grows_stream. intros R s x Hw Hx. eapply M_contents_open; [eauto|constructor|]. pw.
  - apply grows_stream. intros R s x Hw Hx. eapply M_contents_open; [eauto|constructor; apply Hin|]. pw.
  - apply grows_stream. intros R s x Hw Hx. eapply M_contents_open; [eauto|constructor; apply Hin|]. pw.
  - apply grows_stream. intros R s x Hw Hx. eapply M_contents_open; [eauto|constructor; apply Hin|]. pw.
  - apply grows_stream. intros R s x Hw Hx. eapply M_contents_open; [eauto|constructor; [auto|exact Hok]|]. pw.
  - apply grows_stream. intros R s x Hw Hx. apply (M_roe_start _ _ _ _ _ x d); [auto|auto| | |pw].
    + intros q Hq. apply Hok. now left.
    + apply Hok. now right.
  - (* remove_id *)
    intros R h s x h' s' Hi Hw E. cbn [build_op] in E. destruct (static_ident (lit "id"%string)); [|discriminate].
    injection E as <- <-. exists R. split; [auto|]. split; [auto|]. econstructor; eauto. apply M_pos in Hw. pw.
Qed.

Lemma grows_content R b y q : MB R b y q -> forall h s x h' s', Inv R h -> M R s x ->
  build_content b h s = Done h' s' -> exists R', R ⊆ R' /\ Inv R' h' /\ M R' s' (y + 8 * P q * x).
Proof.
  intros Hb h s x h' s' Hi Hw E. pose proof (M_pos _ _ _ Hw). destruct Hb; cbn [build_content] in E.
  - destruct (grows_build p q H0 _ _ _ _ _ _ Hi Hw E) as (R' & ? & ? & ?). exists R'.
    split; [auto|]. split; [auto|]. eapply M_mono; eauto. pw.
  - injection E as <- <-. exists R. split; [auto|]. split; [auto|]. econstructor; eauto. pw.
  - injection E as <- <-. exists R. split; [auto|]. split; [auto|].
    econstructor; [eauto|econstructor; [eauto|apply Nat.le_refl]|]. pw.
  - injection E as <- <-. exists R. split; [auto|]. split; [auto|]. econstructor; eauto. pw.
  - injection E as <- <-. exists R. split; [auto|]. split; [auto|]. econstructor; eauto. pw.
  - destruct (grows_select m b direct q H0 _ _ _ _ _ _ Hi Hw E) as (R' & ? & ? & ?). exists R'.
    split; [auto|]. split; [auto|]. eapply M_mono; eauto. pw.
  - destruct (grows_once m p direct q H0 _ _ _ _ _ _ Hi Hw E) as (R' & ? & ? & ?). exists R'.
    split; [auto|]. split; [auto|]. eapply M_mono; eauto. pw.
  - injection E as <- <-. exists R. split; [auto|]. split; [auto|]. econstructor; eauto; pw.
Qed.

(** ** Running *)

Definition Pres (R : ranks) (d : nat) (o : step_out) : Prop :=
  forall h s r, o = Done h (s, r) -> exists R', R ⊆ R' /\ Inv R' h /\ M R' s d.

Lemma pres_done R d h s r : Inv R h -> M R s d -> Pres R d (Done h (s, r)).
Proof. intros Hi Hw h' s' r' [= <- <- <-]. exists R. auto. Qed.
Lemma pres_sub R R' d o : R ⊆ R' -> Pres R' d o -> Pres R d o.
Proof.
  intros HR H h s r E. destruct (H h s r E) as (R2 & ? & ? & ?). exists R2.
  split; [etransitivity; eauto|auto].
Qed.
Lemma pres_mono R x y o : Pres R x o -> x <= y -> Pres R y o.
Proof.
  intros H Hy h s r E. destruct (H h s r E) as (R2 & ? & ? & ?).
  exists R2. split; [auto|]. split; [auto|]. eapply M_mono; eauto.
Qed.
Lemma pres_bind R x d o k : Pres R x o ->
  (forall R' h s r, R ⊆ R' -> Inv R' h -> M R' s x -> 8 <= x -> Pres R' d (k h (s, r))) ->
  Pres R d (obind o k).
Proof.
  intros Ho Hk h s r E. destruct o as [| |h1 [s1 r1]]; try discriminate.
  destruct (Ho h1 s1 r1 eq_refl) as (R' & HR & Hi & Hw). cbn [obind] in *.
  exact (pres_sub _ _ _ _ HR (Hk R' h1 s1 r1 HR Hi Hw (M_pos _ _ _ Hw)) h s r E).
Qed.
Lemma pres_on_ok R x d o dead k : Pres R x o ->
  (forall R' s, R ⊆ R' -> M R' s x -> 8 <= x -> M R' (dead s) d) ->
  (forall R' h s r, R ⊆ R' -> Inv R' h -> M R' s x -> 8 <= x -> Pres R' d (k h s r)) ->
  Pres R d (on_ok o dead k).
Proof.
  intros Ho Hd Hk. eapply pres_bind; [exact Ho|]. intros R' h s [r|e] HR Hi Hw Hx; [auto|].
  apply pres_done; auto.
Qed.
Lemma pres_passthrough R x d o dead cont : Pres R x o ->
  (forall R', R ⊆ R' -> 8 <= x -> M R' dead d) -> (forall R' s, R ⊆ R' -> M R' s x -> M R' (cont s) d) ->
  Pres R d (passthrough o dead cont).
Proof.
  intros Ho Hd Hc. eapply pres_on_ok; [exact Ho|auto|].
  intros R' h s [ev|] HR Hi Hw Hx; apply pres_done; auto.
Qed.
Lemma pres_build R d bld f h s x k : Grows bld f -> Inv R h -> M R s x ->
  (forall R' h s, R ⊆ R' -> Inv R' h -> M R' s (f x) -> Pres R' d (k h s)) ->
  Pres R d (obind (bld h s) k).
Proof.
  intros Hg Hi Hw Hk h' s' r E. destruct (bld h s) as [| |h1 s1] eqn:Eb; try discriminate.
  destruct (Hg _ _ _ _ _ _ Hi Hw Eb) as (R' & HR & Hi' & Hw'). cbn [obind] in *.
  exact (pres_sub _ _ _ _ HR (Hk R' h1 s1 HR Hi' Hw') h' s' r E).
Qed.
Lemma pres_cell R h l r f : R !! l = Some r -> 8 <= r -> Inv R h ->
  (forall R' h s, R ⊆ R' -> Inv R' h -> M R' s r -> Pres R' r (f h s)) ->
  Pres R (S r) (with_cell h l f).
Proof.
  intros Hl H8 Hi H. unfold with_cell. destruct (h !! l) as [[c|]|] eqn:El; try (intros ? ? ?; discriminate).
  pose proof (proj2 Hi l c El) as (r' & Hr & Hw). rewrite Hl in Hr. injection Hr as <-.
  eapply pres_bind; [apply (H R); auto; apply inv_borrow; eauto|].
  intros R' h' s' r' HR Hi' Hw' Hx. assert (R' !! l = Some r) as Hl' by (eapply lookup_weaken; eauto).
  apply pres_done; [eapply inv_return; eauto|]. econstructor; eauto.
Qed.

Section step.
Context (n : nat).
Hypothesis IHne : forall d R h s, Inv R h -> M R s d -> Pres R d (ne (run n) h s).
Hypothesis IHsk : forall d R h s, Inv R h -> M R s d -> Pres R d (sk (run n) h s).
Hypothesis IHdr : forall d R h s, Inv R h -> M R s d -> Pres R (S d) (dr (run n) h s).
Hypothesis IHco : forall d R h s acc, Inv R h -> M R s d ->
  forall h' r, co (run n) h s acc = Done h' r -> exists R', R ⊆ R' /\ Inv R' h'.

Lemma pres_peek d R h s : Inv R h -> M R s d -> Pres R d (peek (run n) h s).
Proof.
  intros Hi Hw. destruct s; try (intros ? ? ?; discriminate). cbn [peek]. destruct buffered.
  { now apply pres_done. }
  inversion Hw; subst. eapply pres_on_ok; [eapply IHsk; eauto| |].
  - intros. econstructor; eauto.
  - intros. apply pres_done; auto. econstructor; eauto.
Qed.
Lemma pres_co d R h s acc dd k : Inv R h -> M R s d ->
  (forall R' h r, R ⊆ R' -> Inv R' h -> Pres R' dd (k h r)) ->
  Pres R dd (obind (co (run n) h s acc) k).
Proof.
  intros Hi Hw Hk h' s' r E. destruct (co (run n) h s acc) as [| |h1 r1] eqn:Ec; try discriminate.
  destruct (IHco _ _ _ _ _ Hi Hw _ _ Ec) as (R' & HR & Hi'). cbn [obind] in *.
  exact (pres_sub _ _ _ _ HR (Hk R' h1 r1 HR Hi') h' s' r E).
Qed.

Ltac done_ := apply pres_done; [assumption|econstructor; eauto; lia].
Ltac lw := match goal with H : ?R !! ?l = Some _, S : ?R ⊆ ?R' |- ?R' !! ?l = Some _ =>
  eapply lookup_weaken; [exact H|exact S] end.
Ltac end_ := apply pres_done; [assumption|econstructor; [lw|lia|lia]].

Lemma pres_ne d R h s : Inv R h -> M R s d -> Pres R d (ne_body (run n) h s).
Proof.
  intros Hi Hw. pose proof (M_pos _ _ _ Hw) as H8. destruct Hw; cbn [ne_body].
  - destruct (nth_error evs i); done_.
  - destruct evs, e; done_.
  - destruct c; done_.
  - eapply pres_mono; [eapply pres_cell; eauto|]. lia.
  - done_.
  - done_.
  - done_.
  - eapply pres_passthrough; [eapply IHne; eauto| |]; intros; econstructor; eauto; lia.
  - done_.
  - eapply pres_on_ok; [eapply IHsk; eauto|intros; constructor; lia|].
    intros R' h' s' [[]|] HR Hi' Hw' Hx; done_.
  - eapply pres_passthrough; [eapply IHne; eauto| |]; intros; econstructor; eauto; lia.
  - done_.
  - destruct ev; [done_|].
    eapply pres_on_ok; [eapply IHsk; eauto| |]; intros; [econstructor; eauto; lia|done_].
  - done_.
  - eapply pres_on_ok; [eapply IHsk; eauto|intros; constructor; lia|].
    intros R' h' s' [|] HR Hi' Hw' Hx; apply pres_done; auto.
    + eapply (M_combine_first _ _ _ _ y); eauto. eapply M_weaken; eauto.
    + eapply M_combine_second; [eapply M_weaken; eauto|lia].
  - eapply pres_passthrough; [eapply IHsk; eauto| |]; intros; econstructor; eauto; lia.
  - eapply pres_mono; [eapply IHdr; eauto|lia].
  - done_.
  - destruct ev; done_.
  - eapply pres_on_ok; [eapply IHne; eauto|intros; constructor; lia|].
    intros R' h' s' [ev|] HR Hi' Hw' Hx; [|done_].
    destruct (is_opening_tag_for ev tag); [done_|]. destruct (is_closing_tag_for ev tag); [|done_].
    destruct level; done_.
  - done_.
  - (* select, scanning *)
    eapply pres_on_ok; [eapply IHsk; [eauto|econstructor; eauto]|intros; econstructor; [lw|lia|lia]|].
    intros R' h' s' [ev|] HR Hi' Hw' Hx; [|end_].
    assert (R' !! l = Some r) as Hl by (eapply lookup_weaken; eauto).
    destruct (include direct level && matches m ev).
    + eapply (pres_build _ _ _ (fun x => P q * x) _ _ (r + 3)); [apply grows_build; auto|auto| |].
      * econstructor; [econstructor; [eauto|lia|apply Nat.le_refl]|lia].
      * intros R2 h2 s2 HR2 Hi2 Hw2. apply pres_done; auto.
        eapply M_select_active; [lw|lia|eauto|lia|eauto|lia].
    + destruct (adjust level ev); [|end_]. apply pres_done; auto. econstructor; [lw|lia|eauto|lia].
  - (* select, active *)
    eapply pres_on_ok; [eapply IHne; eauto|intros; econstructor; [lw|lia|lia]|].
    intros R' h' s' [ev|] HR Hi' Hw' Hx; apply pres_done; auto.
    + eapply M_select_active; [lw|lia|eauto|lia|eauto|lia].
    + econstructor; [lw|lia|eauto|lia].
  - done_.
  - (* select_once, scanning *)
    eapply pres_on_ok; [eapply IHsk; [eauto|econstructor; eauto]|intros; econstructor; [lw|lia|lia]|].
    intros R' h' s' [ev|] HR Hi' Hw' Hx; [|end_].
    assert (R' !! l = Some r) as Hl by (eapply lookup_weaken; eauto).
    destruct (include direct level && matches m ev).
    + eapply (pres_build _ _ _ (fun x => P q * x) _ _ (r + 3)); [apply grows_build; auto|auto| |].
      * econstructor; [econstructor; [eauto|lia|apply Nat.le_refl]|lia].
      * intros R2 h2 s2 HR2 Hi2 Hw2. apply pres_done; auto.
        eapply M_once_active; [lw|lia|eauto|lia].
    + destruct (adjust level ev); [|end_]. apply pres_done; auto. econstructor; [lw|lia|eauto|lia].
  - eapply pres_on_ok; [eapply IHne; eauto|intros; econstructor; [lw|lia|lia]|].
    intros R' h' s' [ev|] HR Hi' Hw' Hx; apply pres_done; auto.
    + eapply M_once_active; [lw|lia|eauto|lia].
    + econstructor; [lw|lia|lia].
  - eapply pres_on_ok; [eapply IHne; [eauto|econstructor; eauto]|intros; econstructor; [lw|lia|lia]|].
    intros R' h' s' [ev|] HR Hi' Hw' Hx; end_.
  - done_.
  - (* contents, open *)
    eapply (pres_on_ok _ (S x)); [eapply IHsk; [eauto|econstructor; eauto]|intros; constructor; lia|].
    intros R' h' s' [ev|] HR Hi' Hw' Hx; [|done_]. destruct ev; try done_.
    assert (M R' (SPeek s' None) (3 + x)) as Hp by (econstructor; [exact Hw'|lia]).
    destruct (inv_fresh _ _ _ _ Hi' Hp) as (HR2 & Hl2 & Hi2).
    set (l := fresh_loc h') in *. set (R2 := <[l := 3 + x]> R') in *.
    intros h3 s3 r3 E.
    destruct (build_content b _ (SCurrentContent (Some (tag, l, 0)))) as [| |h4 s4] eqn:Eb; try discriminate.
    injection E as <- <- <-.
    assert (MB R2 b y q) as Hb by (eapply MB_weaken; [eassumption|etransitivity; eassumption]).
    assert (M R2 (SCurrentContent (Some (tag, l, 0))) (x + 4)) as Hcur by (econstructor; [exact Hl2|lia|lia]).
    destruct (grows_content _ _ _ _ Hb _ _ _ _ _ Hi2 Hcur Eb) as (R4 & HR4 & Hi4 & Hw4).
    exists R4. split; [etransitivity; eauto|]. split; [auto|].
    eapply M_contents_content; [eapply lookup_weaken; eauto|lia|eauto|lia].
  - (* contents, content *)
    eapply pres_on_ok; [eapply IHne; eauto|intros; constructor; lia|].
    intros R' h' s' [ev|] HR Hi' Hw' Hx; apply pres_done; auto.
    + eapply M_contents_content; [lw|lia|eauto|lia].
    + econstructor; [lw|lia|lia].
  - eapply pres_on_ok; [eapply IHsk; [eauto|econstructor; eauto]|intros; constructor; lia|].
    intros R' h' s' [ev|] HR Hi' Hw' Hx; [|done_]. destruct ev; try done_.
    destruct (ident_eqb _ tag); done_.
  - done_.
  - (* current contents *)
    assert (forall R', R ⊆ R' -> forall h', Inv R' h' -> Pres R' d
      (on_ok (ne (run n) h' (SShared l)) (fun _ => SCurrentContent None) (fun h0 _ r0 =>
         match r0 with
         | Some ev => match adjust level ev with
                      | inl level => emit h0 (SCurrentContent (Some (tag, l, level))) ev
                      | inr _ => fail h0 (SCurrentContent None) (missing_close tag)
                      end
         | None => fail h0 (SCurrentContent None) (missing_close tag)
         end))) as Hnext.
    { intros R' HR h' Hi'. assert (R' !! l = Some r) as Hl by lw.
      eapply pres_on_ok; [eapply IHne; [eauto|econstructor; eauto]|intros; constructor; lia|].
      intros R2 h2 s2 [ev|] HR2 Hi2 Hw2 Hx; [|done_]. destruct (adjust level ev); [|done_].
      end_. }
    destruct (negb (level =? 0)); [apply Hnext; auto|].
    eapply (pres_on_ok _ (S r)); [|intros; constructor; lia|].
    + apply pres_cell; auto. intros. apply pres_peek; auto.
    + intros R' h' s' [ev|] HR Hi' Hw' Hx; [|done_].
      destruct (is_closing_tag_for ev tag); [done_|]. now apply Hnext.
  - eapply pres_bind; [eapply IHne; eauto|]. intros. done_.
  - done_.
  - eapply pres_co; [eauto|eauto|]. intros R' h' [evs|e] HR Hi'; [|done_].
    destruct (f evs); done_.
  - eapply pres_passthrough; [eapply IHne; [eauto|apply (M_template _ _ _ 8); lia]|intros; constructor; lia|].
    intros R' s' HR Hw'. destruct s'; first [constructor; [auto|lia]|eapply M_mono; [exact Hw'|lia]].
  - done_.
  - eapply pres_co; [eauto|eauto|]. intros R' h' [evs|e] HR Hi'; done_.
  - destruct bs as [|p bs]; [done_|].
    eapply (pres_build _ _ _ (fun x => P q * x) _ _ 8); [apply grows_build; apply H0; now left|auto|constructor; lia|].
    intros R2 h2 s2 HR2 Hi2 Hw2. apply pres_done; auto.
    eapply (M_repeat_emit _ _ _ _ _ q); [auto|eauto|intros p' Hp'; apply H0; now right|lia|lia].
  - eapply pres_on_ok; [eapply IHne; eauto|intros; constructor; lia|].
    intros R' h' s' [ev|] HR Hi' Hw' Hx; done_.
  - done_.
  - pose proof (M_pos _ _ _ Hw) as Hx8. destruct bs as [|p0 bs].
    + eapply (pres_build _ _ _ (fun x => P q * x) _ _ x); [apply grows_build; auto|auto|auto|].
      intros R2 h2 s2 HR2 Hi2 Hw2. apply pres_done; auto. econstructor; eauto. pw.
    + apply pres_done; auto. apply (M_roe_repeat _ _ (4 + x + 8 * P q * (x + 4))); [|lia]. destruct contents.
      * eapply M_contents_open; [eauto|constructor; eauto|lia].
      * eapply M_repeat_collect; [auto|eauto|eauto|pw|pw].
  - eapply pres_passthrough; [eapply IHne; eauto| |]; intros; econstructor; eauto; lia.
  - eapply pres_passthrough; [eapply IHne; eauto| |]; intros; econstructor; eauto; lia.
  - done_.
  - eapply pres_on_ok; [eapply IHsk; eauto|intros; constructor; lia|].
    intros R' h' s' [[]|] HR Hi' Hw' Hx; done_.
  - eapply pres_passthrough; [eapply IHne; eauto| |]; intros; econstructor; eauto; lia.
Qed.
End step.

Lemma pres_all n :
  (forall d R h s, Inv R h -> M R s d -> Pres R d (ne (run n) h s)) /\
  (forall d R h s, Inv R h -> M R s d -> Pres R d (sk (run n) h s)) /\
  (forall d R h s, Inv R h -> M R s d -> Pres R (S d) (dr (run n) h s)) /\
  (forall d R h s acc, Inv R h -> M R s d ->
     forall h' r, co (run n) h s acc = Done h' r -> exists R', R ⊆ R' /\ Inv R' h').
Proof.
  induction n as [|n (IHne & IHsk & IHdr & IHco)].
  { repeat split; intros; try (intros ? ? ?; discriminate); discriminate. }
  split; [|split; [|split]].
  - intros d R h s Hi Hw. now apply pres_ne.
  - intros d R h s Hi Hw. cbn [run sk]. unfold sk_body.
    eapply pres_bind; [apply IHne; eauto|]. intros R' h' s' [[[]|]|] HR Hi' Hw' Hx; try now apply pres_done.
    now apply IHsk.
  - intros d R h s Hi Hw. cbn [run dr]. unfold dr_body.
    eapply pres_bind; [apply IHne; eauto|]. intros R' h' s' [[|]|] HR Hi' Hw' Hx.
    + now apply IHdr.
    + apply pres_done; auto. econstructor; eauto.
    + apply pres_done; auto. econstructor; eauto.
  - intros d R h s acc Hi Hw h' r E. cbn [run co] in E. unfold co_body in E.
    destruct (sk (run n) h s) as [| |h1 [s1 r1]] eqn:Es; try discriminate. cbn [obind] in E.
    destruct (IHsk d R h s Hi Hw _ _ _ Es) as (R1 & HR1 & Hi1 & Hw1).
    destruct r1 as [[ev|]|e].
    + destruct (IHco d R1 h1 s1 (acc ++ [ev]) Hi1 Hw1 _ _ E) as (R2 & HR2 & Hi2).
      exists R2. split; [etransitivity; eauto|auto].
    + injection E as <- <-. eauto.
    + injection E as <- <-. eauto.
Qed.

Lemma goes_within h s h' s' : Goes h s h' s' -> forall R d, Inv R h -> M R s d -> Within h' s' d.
Proof.
  induction 1 as [h s|h s h1 s1 r h' s' [n E] _ IH|h s h1 s1 r h' s' [n E] _ IH]; intros R d Hi Hw.
  - eapply within; eauto.
  - destruct (proj1 (pres_all n) d R h s Hi Hw _ _ _ E) as (R' & _ & Hi' & Hw'). eauto.
  - destruct (proj1 (proj2 (pres_all n)) d R h s Hi Hw _ _ _ E) as (R' & _ & Hi' & Hw'). eauto.
Qed.

Lemma kept p d : Ok p d -> forall evs h s h' s', build p ∅ (STemplate evs 0) = Done h s ->
  Goes h s h' s' -> exists n, Keeps count h' s' n /\ n <= 8 * 16 ^ d.
Proof.
  intros Hp evs h s h' s' Eb Hg.
  destruct (grows_build p d Hp ∅ ∅ (STemplate evs 0) 8 h s inv_empty) as (R & _ & Hi & Hw);
    [constructor; lia|exact Eb|].
  destruct (goes_within _ _ _ _ Hg R _ Hi Hw) as (n & Hk & Hle). exists n. split; [auto|]. lia.
Qed.
End Count.

Lemma kept_streams p d evs h s h' s' : Depth p d -> build p ∅ (STemplate evs 0) = Done h s ->
  Goes h s h' s' -> exists n, Keeps (fun _ => 1) h' s' n /\ n <= 8 * 16 ^ d.
Proof. intros Hd. apply kept. split; [auto|]. left. intros ?. lia. Qed.
Lemma kept_all p d evs h s h' s' : Depth p d -> Streaming p ->
  build p ∅ (STemplate evs 0) = Done h s ->
  Goes h s h' s' -> exists n, Keeps length h' s' n /\ n <= 8 * 16 ^ d.
Proof. intros Hd Hs. apply kept. split; auto. Qed.

(** ** Calls that collect *)

Section Copy.
Context (ev : event) (Hev : ev <> Noop).
Lemma sk_repeat n m i h : sk (run (2 + n)) h (STemplate (List.repeat ev m) i) =
  match nth_error (List.repeat ev m) i with
  | Some ev => Done h (STemplate (List.repeat ev m) (S i), inl (Some ev))
  | None => Done h (STemplate (List.repeat ev m) i, inl None)
  end.
Proof.
  cbn [run sk Nat.add]. unfold sk_body. cbn [ne ne_body].
  destruct (nth_error (List.repeat ev m) i) as [e|] eqn:E; cbn [emit finish obind]; [|reflexivity].
  apply nth_error_In, repeat_spec in E. subst e. now destruct ev.
Qed.
Lemma co_repeat m k : forall i acc h, i + k = m ->
  co (run (3 + k)) h (STemplate (List.repeat ev m) i) acc = Done h (inl (acc ++ List.repeat ev k)).
Proof.
  induction k as [|k IH]; intros i acc h Hi; change (co (run (3 + ?k))) with (co_body (run (2 + k)));
    unfold co_body; rewrite sk_repeat.
  - rewrite (proj2 (nth_error_None _ i)) by (rewrite repeat_length; lia). cbn [obind].
    now rewrite app_nil_r.
  - rewrite nth_error_repeat by lia. cbn [obind]. change (2 + S k) with (3 + k). rewrite (IH (S i)) by lia. now rewrite <- app_assoc.
Qed.
Lemma repeat_goes m : Goes ∅ (SRepeat (Some (RCollect (STemplate (List.repeat ev m) 0) [[]])))
  ∅ (SRepeat (Some (RNext (List.repeat ev m) [[]]))).
Proof.
  eapply Goes_next; [|apply Goes_no_more]. exists (4 + m).
  change (ne (run (4 + m))) with (ne_body (run (3 + m))). unfold ne_body. rewrite co_repeat by lia. reflexivity.
Qed.
End Copy.

Lemma collected ev : ev <> Noop -> forall B, exists evs h s h' s', (forall x, In x evs -> x = ev) /\
  build [ORepeat [[]]] ∅ (STemplate evs 0) = Done h s /\ Goes h s h' s' /\
  forall n, Keeps length h' s' n -> B < n.
Proof.
  intros Hev B. exists (List.repeat ev B), ∅. do 3 eexists. split; [intros x; apply repeat_spec|].
  split; [reflexivity|]. split; [now apply repeat_goes|].
  intros n H. inversion H; subst. rewrite repeat_length. lia.
Qed.
