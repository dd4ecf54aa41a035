(** Proofs for C77: what a transformation keeps, when closures have state. *)
From Coq Require Import String List Lia.
From stdpp Require Import gmap.
From Verif Require Import Text Event Input Parse Selector Machine MachineState.
From Verif Require Import SpecTransform SpecDepth SpecState SpecStop SpecMemoryState StopProofs.
Local Open Scope nat_scope.

Notation P q := (16 ^ q).
Lemma P_pos q : 1 <= P q. Proof. induction q; cbn [Nat.pow]; lia. Qed.
Lemma P_lin q : q < P q. Proof. apply Nat.pow_gt_lin_r. lia. Qed.
Lemma P_mul q x : 8 <= x -> 8 * P q <= P q * x /\ x <= P q * x /\ q < P q /\ 1 <= P q.
Proof. intros H. pose proof (P_pos q). pose proof (P_lin q). repeat split; try lia; nia. Qed.

Section Count.
Context {W : Type} (count : list event -> nat).

Definition Small : Prop := forall evs, count evs <= 1.
Definition Ok (p : wpipeline W) (q : nat) : Prop := WDepth p q /\ (Small \/ WStreaming p).
Definition OkOnce (b : once W) (q : nat) : Prop := forall w, Ok (snd (b w)) q.
Definition OkIter (it : iterator W) (q : nat) : Prop :=
  forall k v v' b, it k v = (v', Some b) -> OkOnce b q.
Definition OkItems (i : items W) (q : nat) : Prop :=
  match i with Items peeked it => (forall b, peeked = Some b -> OkOnce b q) /\ OkIter it q end.

(** ** How much a stream keeps now and later *)

Notation ranks := (gmap loc nat).
Inductive M (R : ranks) : wstrm W -> nat -> Prop :=
| M_template evs i d : 8 <= d -> M R (WSTemplate evs i) d
| M_user evs e d : 8 <= d -> M R (WSUser evs e) d
| M_live f d : 8 <= d -> M R (WSLive f) d
| M_content c d : 8 <= d -> M R (WSContent c) d
| M_shared l r d : R !! l = Some r -> 8 <= r -> S r <= d -> M R (WSShared l) d
| M_fallible_none d : 8 <= d -> M R (WSFallible None) d
| M_fallible_err e d : 8 <= d -> M R (WSFallible (Some (WFStart (inr e)))) d
| M_fallible_start s x d : M R s x -> S x <= d -> M R (WSFallible (Some (WFStart (inl s)))) d
| M_fallible_emit s x d : M R s x -> S x <= d -> M R (WSFallible (Some (WFEmit s))) d
| M_expand_none d : 8 <= d -> M R (WSExpand None) d
| M_expand_start s x d : M R s x -> S x <= d -> M R (WSExpand (Some (WXStart s))) d
| M_expand_emit s x d : M R s x -> S x <= d -> M R (WSExpand (Some (WXEmitStream s))) d
| M_expand_close tag d : 8 <= d -> M R (WSExpand (Some (WXEmitClosingTag tag))) d
| M_peek s ev x d : M R s x -> 2 + x <= d -> M R (WSPeek s ev) d
| M_combine_none d : 8 <= d -> M R (WSCombine None) d
| M_combine_first s1 s2 x y d : M R s1 x -> M R s2 y -> S (x + y) <= d ->
    M R (WSCombine (Some (WCmbFirst s1 s2))) d
| M_combine_second s2 y d : M R s2 y -> S y <= d -> M R (WSCombine (Some (WCmbSecond s2))) d
| M_remove s x d : M R s x -> S x <= d -> M R (WSRemove s) d
| M_single_none d : 8 <= d -> M R (WSSingle None) d
| M_single_start ev s x d : M R s x -> 2 + x <= d -> M R (WSSingle (Some (WSEStart ev s))) d
| M_single_until tag s level x d : M R s x -> S x <= d ->
    M R (WSSingle (Some (WSEUntilClose tag s level))) d
| M_select_none l r m b calls direct d : R !! l = Some r -> 8 <= r -> S r <= d ->
    M R (WSSelect l m b calls direct None) d
| M_select_scan l r q m b calls direct level d : R !! l = Some r -> 8 <= r ->
    (forall k, OkOnce (b k) q) -> 1 + r + P q * (r + 3) <= d ->
    M R (WSSelect l m b calls direct (Some (WSelScanning level))) d
| M_select_active l r q m b calls direct level s x d : R !! l = Some r -> 8 <= r ->
    (forall k, OkOnce (b k) q) -> 1 + r + P q * (r + 3) <= d -> M R s x -> 1 + r + x <= d ->
    M R (WSSelect l m b calls direct (Some (WSelActive level s))) d
| M_once_none l r d : R !! l = Some r -> 8 <= r -> S r <= d -> M R (WSSelectOnce l None) d
| M_once_scan l r q m p direct level d : R !! l = Some r -> 8 <= r -> OkOnce p q ->
    1 + r + P q * (r + 3) <= d -> M R (WSSelectOnce l (Some (WSelOScanning m p direct level))) d
| M_once_active l r s x d : R !! l = Some r -> 8 <= r -> M R s x -> 1 + r + x <= d ->
    M R (WSSelectOnce l (Some (WSelOActive s))) d
| M_once_pass l r d : R !! l = Some r -> 8 <= r -> S r <= d -> M R (WSSelectOnce l (Some WSelOPassthrough)) d
| M_contents_none d : 8 <= d -> M R (WSSelectContent None) d
| M_contents_open s x b y q d : M R s x -> MB R b y q ->
    4 + x + y + 8 * P q * (x + 4) <= d -> M R (WSSelectContent (Some (WSCOpen s b))) d
| M_contents_content l r s tag x d : R !! l = Some r -> 8 <= r -> M R s x -> 1 + r + x <= d ->
    M R (WSSelectContent (Some (WSCContent l s tag))) d
| M_contents_close l r tag d : R !! l = Some r -> 8 <= r -> S r <= d ->
    M R (WSSelectContent (Some (WSCClose l tag))) d
| M_current_none d : 8 <= d -> M R (WSCurrentContent None) d
| M_current tag l r level d : R !! l = Some r -> 8 <= r -> S r <= d ->
    M R (WSCurrentContent (Some (tag, l, level))) d
| M_either first s x d : M R s x -> S x <= d -> M R (WSApplyEither first s) d
| M_apply_none d : 8 <= d -> M R (WSTemplateApply None) d
| M_apply_collect s f x d : Small -> M R s x -> S x <= d -> M R (WSTemplateApply (Some (WTACollect s f))) d
| M_apply_emit evs i d : Small -> 8 <= d -> M R (WSTemplateApply (Some (WTAEmit evs i))) d
| M_repeat_none d : 8 <= d -> M R (WSRepeat None) d
| M_repeat_collect s bs x q d : Small -> M R s x -> OkItems bs q -> S x <= d ->
    2 + P q * 8 <= d -> M R (WSRepeat (Some (WRCollect s bs))) d
| M_repeat_next evs bs q d : Small -> OkItems bs q -> 2 + P q * 8 <= d ->
    M R (WSRepeat (Some (WRNext evs bs))) d
| M_repeat_emit evs s bs x q d : Small -> M R s x -> OkItems bs q -> 2 + x <= d ->
    2 + P q * 8 <= d -> M R (WSRepeat (Some (WREmit evs s bs))) d
| M_roe_none d : 8 <= d -> M R (WSRepeatOrElse None) d
| M_roe_start contents s bs p x q d : Small -> M R s x -> OkIter bs q -> OkOnce p q ->
    5 + x + 8 * P q * (x + 4) <= d -> M R (WSRepeatOrElse (Some (WROEStart contents s bs p))) d
| M_roe_fallback s x d : M R s x -> S x <= d -> M R (WSRepeatOrElse (Some (WROEFallback s))) d
| M_roe_repeat s x d : M R s x -> S x <= d -> M R (WSRepeatOrElse (Some (WROERepeat s))) d
| M_attr_none d : 8 <= d -> M R (WSAttr None) d
| M_attr_start s c x d : M R s x -> S x <= d -> M R (WSAttr (Some (WAStart s c))) d
| M_attr_emit s x d : M R s x -> S x <= d -> M R (WSAttr (Some (WAEmit s))) d
(** [MB R b y q]: the builder keeps [y], and makes of a stream that keeps [x] one that keeps
    [y + 8 * P q * x]. *)
with MB (R : ranks) : wcontent_builder (W:=W) -> nat -> nat -> Prop :=
| MB_user p q : OkOnce p q -> MB R (WCBUser p) 0 q
| MB_remove : MB R WCBRemove 0 0
| MB_replace n y : M R n y -> MB R (WCBReplace n) y 0
| MB_append n y : M R n y -> MB R (WCBAppend n) y 0
| MB_prepend n y : M R n y -> MB R (WCBPrepend n) y 0
| MB_select direct m b q : (forall k, OkOnce (b k) q) -> MB R (WCBSelect direct m b) 0 q
| MB_once direct m p q : OkOnce p q -> MB R (WCBSelectOnce direct m p) 0 q
| MB_repeat bs q : Small -> OkItems bs q -> MB R (WCBRepeat bs) 0 q.
Scheme M_ind' := Induction for M Sort Prop with MB_ind' := Induction for MB Sort Prop.

Lemma M_pos R s d : M R s d -> 8 <= d.
Proof.
  induction 1; try lia; repeat match goal with
    | H : context [P ?q] |- _ => lazymatch goal with
      | _ : 1 <= P q |- _ => fail | _ => pose proof (P_pos q) end end; nia.
Qed.
Lemma M_mono R s d : M R s d -> forall d', d <= d' -> M R s d'.
Proof. inversion 1; subst; intros d'' Hd; econstructor; eauto; try lia. Qed.
Lemma M_weaken R s d : M R s d -> forall R', R ⊆ R' -> M R' s d.
Proof.
  intros H R' HR. revert s d H.
  apply (M_ind' R (fun s d _ => M R' s d) (fun b y q _ => MB R' b y q)); intros;
    econstructor; eauto; try lia; eapply lookup_weaken; eauto.
Qed.
Lemma MB_weaken R b y q : MB R b y q -> forall R', R ⊆ R' -> MB R' b y q.
Proof. intros H R' HR. destruct H; econstructor; eauto using M_weaken. Qed.

(** The heap holds streams that keep no more than [R] says. *)
Definition Inv (R : ranks) (h : gmap loc (wcell W)) : Prop :=
  (forall l, h !! l = None -> R !! l = None) /\
  (forall l s, h !! l = Some (WCell s) -> exists r, R !! l = Some r /\ M R s r).

Lemma inv_empty : Inv ∅ ∅.
Proof. split; [intros l _; apply lookup_empty|intros l s H; now rewrite lookup_empty in H]. Qed.

Lemma inv_fresh R h s x : Inv R h -> M R s x ->
  let l := wfresh_loc h in let R' := <[l := x]> R in
  R ⊆ R' /\ R' !! l = Some x /\ Inv R' (<[l := WCell s]> h).
Proof.
  intros [Hn Hc] Hs. cbn zeta. pose proof ((StopProofs.fresh_loc_none) h) as Hl.
  assert (R ⊆ <[wfresh_loc h := x]> R) as Hsub by (apply insert_subseteq; auto).
  split; [exact Hsub|]. split; [apply lookup_insert|]. split.
  - intros l H. apply lookup_insert_None in H as [H H']. rewrite lookup_insert_ne by auto. auto.
  - intros l s' H. apply lookup_insert_Some in H as [[<- [= <-]]|[Hne H]].
    + exists x. split; [apply lookup_insert|]. eapply M_weaken; eauto.
    + apply Hc in H as (r & Hr & Hw). exists r. rewrite lookup_insert_ne by auto.
      split; [exact Hr|]. eapply M_weaken; eauto.
Qed.
Lemma inv_borrow R h l : Inv R h -> is_Some (h !! l) -> Inv R (<[l := WBorrowed]> h).
Proof.
  intros [Hn Hc] Hl. split.
  - intros l' H. apply lookup_insert_None in H as [H _]. auto.
  - intros l' s H. apply lookup_insert_Some in H as [[_ [=]]|[Hne H]]. auto.
Qed.
Lemma inv_return R h l s r : Inv R h -> R !! l = Some r -> M R s r -> Inv R (<[l := WCell s]> h).
Proof.
  intros [Hn Hc] Hl Hs. split.
  - intros l' H. apply lookup_insert_None in H as [H _]. auto.
  - intros l' s' H. apply lookup_insert_Some in H as [[<- [= <-]]|[Hne H]]; eauto.
Qed.

(** ** What is kept now *)

Scheme Keeps_ind' := Induction for WKeeps Sort Prop with KeepsCell_ind' := Induction for WKeepsCell Sort Prop
  with KeepsBuilder_ind' := Induction for WKeepsBuilder Sort Prop.

Definition Within (h : gmap loc (wcell W)) (s : wstrm W) (d : nat) : Prop := exists n, WKeeps count h s n /\ n <= d.
Lemma within R h s d : Inv R h -> M R s d -> Within h s d.
Proof.
  intros [Hn Hc]. revert s. induction d as [d IHd] using lt_wf_ind.
  assert (forall l r, R !! l = Some r -> r < d -> exists n, WKeepsCell count h l n /\ n <= r) as Hcell.
  { intros l r Hl Hr. destruct (h !! l) as [[s|]|] eqn:E.
    - destruct (Hc l s E) as (r' & Hr' & Hs). rewrite Hl in Hr'. injection Hr' as <-.
      destruct (IHd r Hr s Hs) as (n & Hk & Hle). exists n. split; [econstructor; eauto|auto].
    - exists 0. split; [now constructor|lia].
    - apply Hn in E. congruence. }
  assert (forall s x, M R s x -> x < d -> Within h s x) as IH by eauto.
  assert (forall b y q, MB R b y q -> y < d -> exists n, WKeepsBuilder count h b n /\ n <= y) as Hb.
  { intros b y q Hb Hy. destruct Hb; try (by exists 0; split; [constructor|lia]).
    all: destruct (IH _ _ H Hy) as (k & Hk & ?); exists k; split; [econstructor; eauto|auto]. }
  clear IHd. intros s Hs.
  assert (8 <= d) by (eapply M_pos; eauto).
  inversion Hs; subst;
  repeat match goal with
  | H : M R ?s ?x |- _ => lazymatch x with d => fail | _ =>
      pose proof (M_pos _ _ _ H); apply IH in H; [destruct H as (? & ? & ?)|lia] end
  | H : MB R _ ?y ?q |- _ => apply Hb in H; [destruct H as (? & ? & ?)|lia]
  | H : R !! _ = Some _ |- _ => apply Hcell in H; [destruct H as (? & ? & ?)|lia]
  end; try (eexists; split; [econstructor; eauto|]; lia).
  - destruct ev; eexists; (split; [econstructor; eauto|lia]).
  - eexists. split; [constructor|]. pose proof (H0 evs). lia.
  - eexists. split; [constructor|]. pose proof (H0 evs). pose proof (P_pos q). lia.
  - eexists. split; [econstructor; eauto|]. pose proof (H0 evs). lia.
Qed.

(** ** Building *)

Definition Grows (bld : wheap W -> wstrm W -> wout W (wstrm W)) (f : nat -> nat) : Prop :=
  forall R h s x h' s', Inv R (fst h) -> M R s x -> bld h s = WDone h' s' ->
  exists R', R ⊆ R' /\ Inv R' (fst h') /\ M R' s' (f x).

Lemma grows_stream (g : wstrm W -> wstrm W) f :
  (forall R s x, M R s x -> 8 <= x -> M R (g s) (f x)) -> Grows (fun h s => WDone h (g s)) f.
Proof. intros H R h s x h' s' Hi Hs [= <- <-]. exists R. eauto using M_pos. Qed.

Lemma grows_mono bld f f' : Grows bld f -> (forall x, 8 <= x -> f x <= f' x) -> Grows bld f'.
Proof.
  intros H Hq R h s x h' s' Hi Hs E. destruct (H R h s x h' s' Hi Hs E) as (R' & ? & ? & ?).
  exists R'. split; [auto|]. split; [auto|]. eapply M_mono; eauto using M_pos.
Qed.

Lemma into_stream_within R c : M R (winto_stream c) (8 + nesting c).
Proof.
  revert c. fix IH 1. intros [| | | | | |[c|e]]; cbn [winto_stream nesting]; try (constructor; lia).
  econstructor; [apply IH|]. lia.
Qed.

Lemma content_within R (c : wcontent W) : M R (wcontent_stream c) (8 + wnesting c).
Proof.
  induction c; cbn [wcontent_stream wnesting].
  - apply into_stream_within.
  - constructor. lia.
  - econstructor; [eassumption|]. lia.
Qed.

Lemma grows_select m b direct q : (forall k, OkOnce (b k) q) ->
  Grows (fun h s => let '(h, s) := wselect_new h s m b direct in WDone h s)
    (fun x => 1 + x + P q * (x + 3)).
Proof.
  intros Hb R h s x h' s' Hi Hs [= <- <-]. pose proof (M_pos _ _ _ Hs).
  destruct (inv_fresh R (fst h) s x Hi Hs) as (H1 & H2 & H3). eexists. split; [exact H1|].
  split; [exact H3|]. econstructor; eauto.
Qed.
Lemma grows_once m p direct q : OkOnce p q ->
  Grows (fun h s => let '(h, s) := wselect_once_new h s m p direct in WDone h s)
    (fun x => 1 + x + P q * (x + 3)).
Proof.
  intros Hb R h s x h' s' Hi Hs [= <- <-]. pose proof (M_pos _ _ _ Hs).
  destruct (inv_fresh R (fst h) s x Hi Hs) as (H1 & H2 & H3). eexists. split; [exact H1|].
  split; [exact H3|]. econstructor; eauto.
Qed.

Lemma grows_error err f : (forall x, 8 <= x -> 8 <= f x) ->
  Grows (fun h s => WDone h (wfallible_new (inr err))) f.
Proof. intros Hq. apply grows_stream. intros. constructor. auto. Qed.

Lemma grows_attr name c : Grows (fun h s => wattr_new h s name c) (fun x => 2 + x).
Proof.
  intros R h s x h' s' Hi Hs E. pose proof (M_pos _ _ _ Hs). unfold wattr_new in E. destruct name as [i|e].
  - destruct (c i); [|discriminate]. injection E as <- <-. exists R. split; [auto|]. split; [auto|].
    econstructor; [econstructor; [eauto|apply Nat.le_refl]|]. lia.
  - injection E as <- <-. exists R. split; [auto|]. split; [auto|]. constructor. lia.
Qed.

Lemma grows_fallible bld f : Grows bld f ->
  Grows (fun h s => wbind (bld h s) (fun h s => WDone h (wfallible_new (inl s)))) (fun x => S (f x)).
Proof.
  intros H R h s x h' s' Hi Hs E. destruct (bld h s) as [| |h1 s1] eqn:Eb; try discriminate.
  injection E as <- <-. destruct (H _ _ _ _ _ _ Hi Hs Eb) as (R' & ? & ? & ?). exists R'.
  split; [auto|]. split; [auto|]. econstructor; eauto.
Qed.

Lemma streaming_sub (o : wop W) p q : WStreaming (o :: p) -> Makes o q -> WStreaming q.
Proof. intros H Hs. inversion H as [? H1 H2]; subst. eapply H2; eauto. now left. Qed.
Lemma streaming_tail (o : wop W) p : WStreaming (o :: p) -> WStreaming p.
Proof.
  intros H. inversion H as [? H1 H2]; subst. constructor.
  - intros o' Ho. apply H1. now right.
  - intros o' q Ho. apply H2. now right.
Qed.

Lemma mul_add a b c : a * (b + c) = a * b + a * c. Proof. lia. Qed.
Ltac pw := intros; cbn [Nat.pow] in *; repeat match goal with
  | H : 8 <= ?x |- context [P ?q] => lazymatch goal with
     | _ : 8 * P q <= P q * x |- _ => fail
     | _ => pose proof (P_mul q x H) as (? & ? & ? & ?)
     end end; cbn [Nat.pow Nat.add] in *; lia.

Lemma grows_build p d : Ok p d -> Grows (wbuild p) (fun x => P d * x).
Proof.
  intros [H Hf]. revert Hf. induction H as [d|o p d d' Hs IHs Hc _ IH]; intros Hf.
  { intros R h s x h' s' Hi Hw [= <- <-]. exists R. split; [auto|]. split; [auto|]. eapply M_mono; eauto.
    apply M_pos in Hw. pw. }
  assert (Small \/ WStreaming p) as Hfp by (destruct Hf; eauto using streaming_tail).
  assert (forall q, Makes o q -> Ok q d) as Hok by (intros q Hq; split; [eauto|]; destruct Hf; eauto using streaming_sub).
  assert (forall q, Makes o q -> Grows (wbuild q) (fun x => P d * x)) as Hg.
  { intros q Hq. apply IHs; auto. apply (Hok q Hq). }
  assert (WCollects o -> Small) as Hsmall.
  { intros Hcol. destruct Hf as [Hf|Hf]; [auto|]. exfalso. inversion Hf as [? H1 H2]; subst. apply (H1 o); [now left|auto]. }
  specialize (IH Hfp). clear Hs IHs Hf Hfp.
  assert (Grows (wbuild_op o) (fun x => P (S d) * x)) as Ho.
  2:{ intros R h s x h' s' Hi Hw E. cbn [wbuild] in E.
      destruct (wbuild_op o h s) as [| |h1 s1] eqn:E1; try discriminate. cbn [wbind] in E.
      destruct (Ho _ _ _ _ _ _ Hi Hw E1) as (R1 & HR1 & Hi1 & Hw1).
      destruct (IH _ _ _ _ _ _ Hi1 Hw1 E) as (R2 & HR2 & Hi2 & Hw2).
      exists R2. split; [etransitivity; eauto|]. split; [auto|]. eapply M_mono; eauto.
      replace (P (S (d + d'))) with (P d' * P (S d)); [lia|]. rewrite <- Nat.pow_add_r. f_equal. lia. }
  assert (forall c, wop_content o = Some c -> forall R, M R (wcontent_stream c) (8 + d)) as Hin.
  { intros c Ec R. eapply M_mono; [apply content_within|]. apply Hc in Ec. lia. }
  clear Hc IH.
  destruct o; cbn [Makes] in Hok, Hg; cbn [wop_content] in Hin; cbn [WCollects] in Hsmall; try specialize (Hsmall I);
    try specialize (Hin _ eq_refl); try specialize (Hok _ eq_refl); try specialize (Hg _ eq_refl);
    try (eapply grows_mono; [apply grows_attr|pw]).
  - (* apply *) eapply grows_mono; [exact Hg|pw].
  - apply grows_stream. intros. eapply M_mono; eauto. pw.
  - apply grows_stream. intros. eapply M_mono; eauto. pw.
  - (* either *)
    intros R h s x h' s' Hi Hw E. change (wbind (wbuild p0 h s) (fun h s => WDone h (WSApplyEither first s)) = WDone h' s') in E.
    destruct (wbuild p0 h s) as [| |h1 s1] eqn:E1; try discriminate. injection E as <- <-.
    destruct (Hg _ _ _ _ _ _ Hi Hw E1) as (R1 & HR1 & Hi1 & Hw1). apply M_pos in Hw.
    exists R1. split; [auto|]. split; [auto|]. econstructor; eauto. pw.
  - apply grows_stream. intros. econstructor; eauto. pw.
  - (* select *)
    destruct sel as [m|e]; [|apply grows_error; pw].
    apply (grows_mono _ (fun x => S (1 + x + P d * (x + 3)))); [|pw].
    change (Grows (fun h s => wbind (let '(h, s) := wselect_new h s m b direct in WDone h s)
                                (fun h s => WDone h (wfallible_new (inl s)))) (fun x => S (1 + x + P d * (x + 3)))).
    apply (grows_fallible _ (fun x => 1 + x + P d * (x + 3))), grows_select. intros k w. apply Hok. now exists k, w.
  - destruct sel as [m|e]; [|apply grows_error; pw].
    apply (grows_mono _ (fun x => S (1 + x + P d * (x + 3)))); [|pw].
    change (Grows (fun h s => wbind (let '(h, s) := wselect_once_new h s m b direct in WDone h s)
                                (fun h s => WDone h (wfallible_new (inl s)))) (fun x => S (1 + x + P d * (x + 3)))).
    apply (grows_fallible _ (fun x => 1 + x + P d * (x + 3))), grows_once. intros w. apply Hok. now exists w.
  - apply grows_stream. intros. econstructor; eauto. pw.
  - apply grows_stream. intros. econstructor; [apply Hin|eauto|pw].
  - apply grows_stream. intros. econstructor; [eauto|apply Hin|pw].
  - apply grows_stream. intros. econstructor; [apply Hin|econstructor; [eauto|apply Nat.le_refl]|pw].
  - apply grows_stream. intros R s x Hw Hx. eapply (M_repeat_collect _ _ _ _ d); [auto|eauto| |pw|pw].
    split; [discriminate|]. intros k v v' b E w. apply Hok. now exists k, v, v', b, w.
  - apply grows_stream. intros R s x Hw Hx. apply (M_roe_start _ _ _ _ _ x d); [auto|auto| | |pw].
    + intros k v v' b' E w. apply Hok. left. now exists k, v, v', b', w.
    + intros w. apply Hok. right. now exists w.
  - apply grows_stream. intros R s x Hw Hx.
    eapply M_contents_open; [eauto|constructor; intros w; apply Hok; now exists w|pw].
  - destruct sel as [m|e]; [|apply grows_error; pw].
    apply grows_stream. intros R s x Hw Hx. econstructor; [eapply M_contents_open|].
    + eauto.
    + apply MB_select. intros k w. apply Hok. now exists k, w.
    + apply Nat.le_refl.
    + pw.
  - destruct sel as [m|e]; [|apply grows_error; pw].
    apply grows_stream. intros R s x Hw Hx. econstructor; [eapply M_contents_open|].
    + eauto.
    + apply MB_once. intros w. apply Hok. now exists w.
    + apply Nat.le_refl.
    + pw.
  - apply grows_stream. intros R s x Hw Hx. eapply M_contents_open; [eauto|constructor|]. pw.
  - apply grows_stream. intros R s x Hw Hx. eapply M_contents_open; [eauto|constructor; apply Hin|]. pw.
  - apply grows_stream. intros R s x Hw Hx. eapply M_contents_open; [eauto|constructor; apply Hin|]. pw.
  - apply grows_stream. intros R s x Hw Hx. eapply M_contents_open; [eauto|constructor; apply Hin|]. pw.
  - apply grows_stream. intros R s x Hw Hx. eapply M_contents_open; [eauto|apply (MB_repeat _ _ d); [auto|]|pw].
    split; [discriminate|]. intros k v v' b E w. apply Hok. now exists k, v, v', b, w.
  - apply grows_stream. intros R s x Hw Hx. apply (M_roe_start _ _ _ _ _ x d); [auto|auto| | |pw].
    + intros k v v' b' E w. apply Hok. left. now exists k, v, v', b', w.
    + intros w. apply Hok. right. now exists w.
  - (* remove_id *)
    intros R h s x h' s' Hi Hw E. cbn [wbuild_op] in E. destruct (static_ident (lit "id"%string)); [|discriminate].
    injection E as <- <-. exists R. split; [auto|]. split; [auto|]. econstructor; eauto. apply M_pos in Hw. pw.
Qed.

Lemma grows_run b q : OkOnce b q -> Grows (run_builder b) (fun x => P q * x).
Proof.
  intros Hb R h s x h' s' Hi Hw E. unfold run_builder in E. specialize (Hb (snd h)).
  destruct (b (snd h)) as [w p]. exact (grows_build p q Hb R (fst h, w) s x h' s' Hi Hw E).
Qed.

Lemma grows_content R b y q : MB R b y q -> forall h s x h' s', Inv R (fst h) -> M R s x ->
  wbuild_content b h s = WDone h' s' -> exists R', R ⊆ R' /\ Inv R' (fst h') /\ M R' s' (y + 8 * P q * x).
Proof.
  intros Hb h s x h' s' Hi Hw E. pose proof (M_pos _ _ _ Hw). destruct Hb; cbn [wbuild_content] in E.
  - destruct (grows_run p q H0 _ _ _ _ _ _ Hi Hw E) as (R' & ? & ? & ?). exists R'.
    split; [auto|]. split; [auto|]. eapply M_mono; eauto. pw.
  - injection E as <- <-. exists R. split; [auto|]. split; [auto|]. econstructor; eauto. pw.
  - injection E as <- <-. exists R. split; [auto|]. split; [auto|].
    econstructor; [eauto|econstructor; [eauto|apply Nat.le_refl]|]. pw.
  - injection E as <- <-. exists R. split; [auto|]. split; [auto|]. econstructor; eauto. pw.
  - injection E as <- <-. exists R. split; [auto|]. split; [auto|]. econstructor; eauto. pw.
  - destruct (grows_select m b direct q H0 _ _ _ _ _ _ Hi Hw E) as (R' & ? & ? & ?). exists R'.
    split; [auto|]. split; [auto|]. eapply M_mono; eauto. pw.
  - destruct (grows_once m p direct q H0 _ _ _ _ _ _ Hi Hw E) as (R' & ? & ? & ?). exists R'.
    split; [auto|]. split; [auto|]. eapply M_mono; eauto. pw.
  - injection E as <- <-. exists R. split; [auto|]. split; [auto|]. econstructor; eauto; pw.
Qed.

(** ** Running *)

Definition Pres (R : ranks) (d : nat) (o : wstep_out W) : Prop :=
  forall h s r, o = WDone h (s, r) -> exists R', R ⊆ R' /\ Inv R' (fst h) /\ M R' s d.

Lemma pres_done R d h s r : Inv R (fst h) -> M R s d -> Pres R d (WDone h (s, r)).
Proof. intros Hi Hw h' s' r' [= <- <- <-]. exists R. auto. Qed.
Lemma pres_sub R R' d o : R ⊆ R' -> Pres R' d o -> Pres R d o.
Proof.
  intros HR H h s r E. destruct (H h s r E) as (R2 & ? & ? & ?). exists R2.
  split; [etransitivity; eauto|auto].
Qed.
Lemma pres_mono R x y o : Pres R x o -> x <= y -> Pres R y o.
Proof.
  intros H Hy h s r E. destruct (H h s r E) as (R2 & ? & ? & ?).
  exists R2. split; [auto|]. split; [auto|]. eapply M_mono; eauto.
Qed.
Lemma pres_bind R x d o k : Pres R x o ->
  (forall R' h s r, R ⊆ R' -> Inv R' (fst h) -> M R' s x -> 8 <= x -> Pres R' d (k h (s, r))) ->
  Pres R d (wbind o k).
Proof.
  intros Ho Hk h s r E. destruct o as [| |h1 [s1 r1]]; try discriminate.
  destruct (Ho h1 s1 r1 eq_refl) as (R' & HR & Hi & Hw). cbn [wbind] in *.
  exact (pres_sub _ _ _ _ HR (Hk R' h1 s1 r1 HR Hi Hw (M_pos _ _ _ Hw)) h s r E).
Qed.
Lemma pres_on_ok R x d o dead k : Pres R x o ->
  (forall R' s, R ⊆ R' -> M R' s x -> 8 <= x -> M R' (dead s) d) ->
  (forall R' h s r, R ⊆ R' -> Inv R' (fst h) -> M R' s x -> 8 <= x -> Pres R' d (k h s r)) ->
  Pres R d (won_ok o dead k).
Proof.
  intros Ho Hd Hk. eapply pres_bind; [exact Ho|]. intros R' h s [r|e] HR Hi Hw Hx; [auto|].
  apply pres_done; auto.
Qed.
Lemma pres_passthrough R x d o dead cont : Pres R x o ->
  (forall R', R ⊆ R' -> 8 <= x -> M R' dead d) -> (forall R' s, R ⊆ R' -> M R' s x -> M R' (cont s) d) ->
  Pres R d (wpassthrough o dead cont).
Proof.
  intros Ho Hd Hc. eapply pres_on_ok; [exact Ho|auto|].
  intros R' h s [ev|] HR Hi Hw Hx; apply pres_done; auto.
Qed.
Lemma pres_build R d bld f h s x k : Grows bld f -> Inv R (fst h) -> M R s x ->
  (forall R' h s, R ⊆ R' -> Inv R' (fst h) -> M R' s (f x) -> Pres R' d (k h s)) ->
  Pres R d (wbind (bld h s) k).
Proof.
  intros Hg Hi Hw Hk h' s' r E. destruct (bld h s) as [| |h1 s1] eqn:Eb; try discriminate.
  destruct (Hg _ _ _ _ _ _ Hi Hw Eb) as (R' & HR & Hi' & Hw'). cbn [wbind] in *.
  exact (pres_sub _ _ _ _ HR (Hk R' h1 s1 HR Hi' Hw') h' s' r E).
Qed.
Lemma pres_cell R h l r f : R !! l = Some r -> 8 <= r -> Inv R (fst h) ->
  (forall R' h s, R ⊆ R' -> Inv R' (fst h) -> M R' s r -> Pres R' r (f h s)) ->
  Pres R (S r) (wwith_cell h l f).
Proof.
  intros Hl H8 Hi H. unfold wwith_cell. destruct (fst h !! l) as [[c|]|] eqn:El; try (intros ? ? ?; discriminate).
  pose proof (proj2 Hi l c El) as (r' & Hr & Hw). rewrite Hl in Hr. injection Hr as <-.
  eapply pres_bind; [apply (H R); auto; apply inv_borrow; eauto|].
  intros R' h' s' r' HR Hi' Hw' Hx. assert (R' !! l = Some r) as Hl' by (eapply lookup_weaken; eauto).
  apply pres_done; [eapply inv_return; eauto|]. econstructor; eauto.
Qed.

Section step.
Context (n : nat).
Hypothesis IHne : forall d R h s, Inv R (fst h) -> M R s d -> Pres R d (wne (wrun n) h s).
Hypothesis IHsk : forall d R h s, Inv R (fst h) -> M R s d -> Pres R d (wsk (wrun n) h s).
Hypothesis IHdr : forall d R h s, Inv R (fst h) -> M R s d -> Pres R (S d) (wdr (wrun n) h s).
Hypothesis IHco : forall d R h s acc, Inv R (fst h) -> M R s d ->
  forall h' r, wco (wrun n) h s acc = WDone h' r -> exists R', R ⊆ R' /\ Inv R' (fst h').

Lemma pres_peek d R h s : Inv R (fst h) -> M R s d -> Pres R d (wpeek (wrun n) h s).
Proof.
  intros Hi Hw. destruct s; try (intros ? ? ?; discriminate). cbn [wpeek]. destruct buffered.
  { now apply pres_done. }
  inversion Hw; subst. eapply pres_on_ok; [eapply IHsk; eauto| |].
  - intros. econstructor; eauto.
  - intros. apply pres_done; auto. econstructor; eauto.
Qed.
Lemma pres_co d R h s acc dd k : Inv R (fst h) -> M R s d ->
  (forall R' h r, R ⊆ R' -> Inv R' (fst h) -> Pres R' dd (k h r)) ->
  Pres R dd (wbind (wco (wrun n) h s acc) k).
Proof.
  intros Hi Hw Hk h' s' r E. destruct (wco (wrun n) h s acc) as [| |h1 r1] eqn:Ec; try discriminate.
  destruct (IHco _ _ _ _ _ Hi Hw _ _ Ec) as (R' & HR & Hi'). cbn [wbind] in *.
  exact (pres_sub _ _ _ _ HR (Hk R' h1 r1 HR Hi') h' s' r E).
Qed.

Lemma next_ok (i : items W) w q : OkItems i q ->
  match next_item i w with
  | (_, _, None) => True
  | (_, i', Some b) => OkOnce b q /\ OkItems i' q
  end.
Proof.
  destruct i as [[b|] it]; cbn [OkItems next_item]; intros [H1 H2].
  - split; [auto|]. split; [discriminate|auto].
  - destruct (it 0 w) as [w' [b|]] eqn:E; [|auto]. split; [eapply H2; eauto|].
    split; [discriminate|]. intros k v v' b' E'. eapply H2; eauto.
Qed.

Ltac done_ := apply pres_done; [assumption|econstructor; eauto; lia].
Ltac lw := match goal with H : ?R !! ?l = Some _, S : ?R ⊆ ?R' |- ?R' !! ?l = Some _ =>
  eapply lookup_weaken; [exact H|exact S] end.
Ltac end_ := apply pres_done; [assumption|econstructor; [lw|lia|lia]].

Lemma pres_ne d R h s : Inv R (fst h) -> M R s d -> Pres R d (wne_body (wrun n) h s).
Proof.
  intros Hi Hw. pose proof (M_pos _ _ _ Hw) as H8. destruct Hw; cbn [wne_body].
  - destruct (nth_error evs i); done_.
  - destruct evs, e; done_.
  - destruct f as [f|]; [|done_]. destruct (f 0 (snd h)) as [w [[ev|]|err]]; done_.
  - destruct c; done_.
  - eapply pres_mono; [eapply pres_cell; eauto|]. lia.
  - done_.
  - done_.
  - done_.
  - eapply pres_passthrough; [eapply IHne; eauto| |]; intros; econstructor; eauto; lia.
  - done_.
  - eapply pres_on_ok; [eapply IHsk; eauto|intros; constructor; lia|].
    intros R' h' s' [[]|] HR Hi' Hw' Hx; done_.
  - eapply pres_passthrough; [eapply IHne; eauto| |]; intros; econstructor; eauto; lia.
  - done_.
  - destruct ev; [done_|].
    eapply pres_on_ok; [eapply IHsk; eauto| |]; intros; [econstructor; eauto; lia|done_].
  - done_.
  - eapply pres_on_ok; [eapply IHsk; eauto|intros; constructor; lia|].
    intros R' h' s' [|] HR Hi' Hw' Hx; apply pres_done; auto.
    + eapply (M_combine_first _ _ _ _ y); eauto. eapply M_weaken; eauto.
    + eapply M_combine_second; [eapply M_weaken; eauto|lia].
  - eapply pres_passthrough; [eapply IHsk; eauto| |]; intros; econstructor; eauto; lia.
  - eapply pres_mono; [eapply IHdr; eauto|lia].
  - done_.
  - destruct ev; done_.
  - eapply pres_on_ok; [eapply IHne; eauto|intros; constructor; lia|].
    intros R' h' s' [ev|] HR Hi' Hw' Hx; [|done_].
    destruct (is_opening_tag_for ev tag); [done_|]. destruct (is_closing_tag_for ev tag); [|done_].
    destruct level; done_.
  - done_.
  - (* select, scanning *)
    eapply pres_on_ok; [eapply IHsk; [eauto|econstructor; eauto]|intros; econstructor; [lw|lia|lia]|].
    intros R' h' s' [ev|] HR Hi' Hw' Hx; [|end_].
    assert (R' !! l = Some r) as Hl by (eapply lookup_weaken; eauto).
    destruct (include direct level && matches m ev).
    + eapply (pres_build _ _ _ (fun x => P q * x) _ _ (r + 3)); [apply grows_run; auto|auto| |].
      * econstructor; [econstructor; [eauto|lia|apply Nat.le_refl]|lia].
      * intros R2 h2 s2 HR2 Hi2 Hw2. apply pres_done; auto.
        eapply M_select_active; [lw|lia|eauto|lia|eauto|lia].
    + destruct (adjust level ev); [|end_]. apply pres_done; auto. econstructor; [lw|lia|eauto|lia].
  - (* select, active *)
    eapply pres_on_ok; [eapply IHne; eauto|intros; econstructor; [lw|lia|lia]|].
    intros R' h' s' [ev|] HR Hi' Hw' Hx; apply pres_done; auto.
    + eapply M_select_active; [lw|lia|eauto|lia|eauto|lia].
    + econstructor; [lw|lia|eauto|lia].
  - done_.
  - (* select_once, scanning *)
    eapply pres_on_ok; [eapply IHsk; [eauto|econstructor; eauto]|intros; econstructor; [lw|lia|lia]|].
    intros R' h' s' [ev|] HR Hi' Hw' Hx; [|end_].
    assert (R' !! l = Some r) as Hl by (eapply lookup_weaken; eauto).
    destruct (include direct level && matches m ev).
    + eapply (pres_build _ _ _ (fun x => P q * x) _ _ (r + 3)); [apply grows_run; auto|auto| |].
      * econstructor; [econstructor; [eauto|lia|apply Nat.le_refl]|lia].
      * intros R2 h2 s2 HR2 Hi2 Hw2. apply pres_done; auto.
        eapply M_once_active; [lw|lia|eauto|lia].
    + destruct (adjust level ev); [|end_]. apply pres_done; auto. econstructor; [lw|lia|eauto|lia].
  - eapply pres_on_ok; [eapply IHne; eauto|intros; econstructor; [lw|lia|lia]|].
    intros R' h' s' [ev|] HR Hi' Hw' Hx; apply pres_done; auto.
    + eapply M_once_active; [lw|lia|eauto|lia].
    + econstructor; [lw|lia|lia].
  - eapply pres_on_ok; [eapply IHne; [eauto|econstructor; eauto]|intros; econstructor; [lw|lia|lia]|].
    intros R' h' s' [ev|] HR Hi' Hw' Hx; end_.
  - done_.
  - (* contents, open *)
    eapply (pres_on_ok _ (S x)); [eapply IHsk; [eauto|econstructor; eauto]|intros; constructor; lia|].
    intros R' h' s' [ev|] HR Hi' Hw' Hx; [|done_]. destruct ev; try done_.
    assert (M R' (WSPeek s' None) (3 + x)) as Hp by (econstructor; [exact Hw'|lia]).
    destruct (inv_fresh _ _ _ _ Hi' Hp) as (HR2 & Hl2 & Hi2).
    set (l := wfresh_loc (fst h')) in *. set (R2 := <[l := 3 + x]> R') in *.
    intros h3 s3 r3 E.
    destruct (wbuild_content b _ (WSCurrentContent (Some (tag, l, 0)))) as [| |h4 s4] eqn:Eb; try discriminate.
    injection E as <- <- <-.
    assert (MB R2 b y q) as Hb by (eapply MB_weaken; [eassumption|etransitivity; eassumption]).
    assert (M R2 (WSCurrentContent (Some (tag, l, 0))) (x + 4)) as Hcur by (econstructor; [exact Hl2|lia|lia]).
    destruct (grows_content _ _ _ _ Hb (_, _) _ _ _ _ Hi2 Hcur Eb) as (R4 & HR4 & Hi4 & Hw4).
    exists R4. split; [etransitivity; eauto|]. split; [auto|].
    eapply M_contents_content; [eapply lookup_weaken; eauto|lia|eauto|lia].
  - (* contents, content *)
    eapply pres_on_ok; [eapply IHne; eauto|intros; constructor; lia|].
    intros R' h' s' [ev|] HR Hi' Hw' Hx; apply pres_done; auto.
    + eapply M_contents_content; [lw|lia|eauto|lia].
    + econstructor; [lw|lia|lia].
  - eapply pres_on_ok; [eapply IHsk; [eauto|econstructor; eauto]|intros; constructor; lia|].
    intros R' h' s' [ev|] HR Hi' Hw' Hx; [|done_]. destruct ev; try done_.
    destruct (ident_eqb _ tag); done_.
  - done_.
  - (* current contents *)
    assert (forall R', R ⊆ R' -> forall h', Inv R' (fst h') -> Pres R' d
      (won_ok (wne (wrun n) h' (WSShared l)) (fun _ => WSCurrentContent None) (fun h0 _ r0 =>
         match r0 with
         | Some ev => match adjust level ev with
                      | inl level => wemit h0 (WSCurrentContent (Some (tag, l, level))) ev
                      | inr _ => wfail h0 (WSCurrentContent None) (missing_close tag)
                      end
         | None => wfail h0 (WSCurrentContent None) (missing_close tag)
         end))) as Hnext.
    { intros R' HR h' Hi'. assert (R' !! l = Some r) as Hl by lw.
      eapply pres_on_ok; [eapply IHne; [eauto|econstructor; eauto]|intros; constructor; lia|].
      intros R2 h2 s2 [ev|] HR2 Hi2 Hw2 Hx; [|done_]. destruct (adjust level ev); [|done_].
      end_. }
    destruct (negb (level =? 0)); [apply Hnext; auto|].
    eapply (pres_on_ok _ (S r)); [|intros; constructor; lia|].
    + apply pres_cell; auto. intros. apply pres_peek; auto.
    + intros R' h' s' [ev|] HR Hi' Hw' Hx; [|done_].
      destruct (is_closing_tag_for ev tag); [done_|]. now apply Hnext.
  - eapply pres_bind; [eapply IHne; eauto|]. intros. done_.
  - done_.
  - eapply pres_co; [eauto|eauto|]. intros R' h' [evs|e] HR Hi'; [|done_].
    destruct (f (snd h') evs) as [w [evs'|err]]; done_.
  - eapply pres_passthrough; [eapply IHne; [eauto|apply (M_template _ _ _ 8); lia]|intros; constructor; lia|].
    intros R' s' HR Hw'. destruct s'; first [constructor; [auto|lia]|eapply M_mono; [exact Hw'|lia]].
  - done_.
  - eapply pres_co; [eauto|eauto|]. intros R' h' [evs|e] HR Hi'; done_.
  - pose proof (next_ok bs (snd h) q H0) as Hn. destruct (next_item bs (snd h)) as [[w bs'] [b|]]; [|done_].
    destruct Hn as [Hb Hn].
    eapply (pres_build _ _ _ (fun x => P q * x) (fst h, w) _ 8); [apply grows_run; eauto|auto|constructor; lia|].
    intros R2 h2 s2 HR2 Hi2 Hw2. apply pres_done; auto.
    eapply (M_repeat_emit _ _ _ _ _ q); [auto|eauto|exact Hn|lia|lia].
  - eapply pres_on_ok; [eapply IHne; eauto|intros; constructor; lia|].
    intros R' h' s' [ev|] HR Hi' Hw' Hx; done_.
  - done_.
  - pose proof (M_pos _ _ _ Hw) as Hx8. destruct (bs 0 (snd h)) as [w [item|]] eqn:Ebs; cycle 1.
    + eapply (pres_build _ _ _ (fun x => P q * x) (fst h, w) _ x); [apply grows_run; auto|auto|auto|].
      intros R2 h2 s2 HR2 Hi2 Hw2. apply pres_done; auto. econstructor; eauto. pw.
    + apply pres_done; auto. apply (M_roe_repeat _ _ (4 + x + 8 * P q * (x + 4))); [|lia].
      assert (OkItems (Items (Some item) (fun n0 => bs (S n0))) q) as Hit.
      { split; [intros b [= <-]; eapply H0; eauto|]. intros k v v' b E. eapply H0; eauto. }
      destruct contents.
      * eapply M_contents_open; [eauto|constructor; eauto|lia].
      * eapply M_repeat_collect; [auto|eauto|eauto|pw|pw].
  - eapply pres_passthrough; [eapply IHne; eauto| |]; intros; econstructor; eauto; lia.
  - eapply pres_passthrough; [eapply IHne; eauto| |]; intros; econstructor; eauto; lia.
  - done_.
  - eapply pres_on_ok; [eapply IHsk; eauto|intros; constructor; lia|].
    intros R' h' s' [[]|] HR Hi' Hw' Hx; done_.
  - eapply pres_passthrough; [eapply IHne; eauto| |]; intros; econstructor; eauto; lia.
Qed.
End step.

Lemma pres_all n :
  (forall d R h s, Inv R (fst h) -> M R s d -> Pres R d (wne (wrun n) h s)) /\
  (forall d R h s, Inv R (fst h) -> M R s d -> Pres R d (wsk (wrun n) h s)) /\
  (forall d R h s, Inv R (fst h) -> M R s d -> Pres R (S d) (wdr (wrun n) h s)) /\
  (forall d R h s acc, Inv R (fst h) -> M R s d ->
     forall h' r, wco (wrun n) h s acc = WDone h' r -> exists R', R ⊆ R' /\ Inv R' (fst h')).
Proof.
  induction n as [|n (IHne & IHsk & IHdr & IHco)].
  { repeat split; intros; try (intros ? ? ?; discriminate); discriminate. }
  split; [|split; [|split]].
  - intros d R h s Hi Hw. now apply pres_ne.
  - intros d R h s Hi Hw. cbn [wrun wsk]. unfold wsk_body.
    eapply pres_bind; [apply IHne; eauto|]. intros R' h' s' [[[]|]|] HR Hi' Hw' Hx; try now apply pres_done.
    now apply IHsk.
  - intros d R h s Hi Hw. cbn [wrun wdr]. unfold wdr_body.
    eapply pres_bind; [apply IHne; eauto|]. intros R' h' s' [[|]|] HR Hi' Hw' Hx.
    + now apply IHdr.
    + apply pres_done; auto. econstructor; eauto.
    + apply pres_done; auto. econstructor; eauto.
  - intros d R h s acc Hi Hw h' r E. cbn [wrun wco] in E. unfold wco_body in E.
    destruct (wsk (wrun n) h s) as [| |h1 [s1 r1]] eqn:Es; try discriminate. cbn [wbind] in E.
    destruct (IHsk d R h s Hi Hw _ _ _ Es) as (R1 & HR1 & Hi1 & Hw1).
    destruct r1 as [[ev|]|e].
    + destruct (IHco d R1 h1 s1 (acc ++ [ev]) Hi1 Hw1 _ _ E) as (R2 & HR2 & Hi2).
      exists R2. split; [etransitivity; eauto|auto].
    + injection E as <- <-. eauto.
    + injection E as <- <-. eauto.
Qed.

Lemma goes_within h s h' s' : WGoes h s h' s' -> forall R d, Inv R (fst h) -> M R s d ->
  Within (fst h') s' d.
Proof.
  induction 1 as [h s|n h s h1 s1 r h' s' E _ IH|n h s h1 s1 r h' s' E _ IH]; intros R d Hi Hw.
  - eapply within; eauto.
  - destruct (proj1 (pres_all n) d R h s Hi Hw _ _ _ E) as (R' & _ & Hi' & Hw'). eauto.
  - destruct (proj1 (proj2 (pres_all n)) d R h s Hi Hw _ _ _ E) as (R' & _ & Hi' & Hw'). eauto.
Qed.

Lemma kept b d : OkOnce b d -> forall evs w h s h' s',
  run_builder b (∅, w) (WSTemplate evs 0) = WDone h s ->
  WGoes h s h' s' -> exists n, WKeeps count (fst h') s' n /\ n <= 8 * 16 ^ d.
Proof.
  intros Hp evs w h s h' s' Eb Hg.
  destruct (grows_run b d Hp ∅ (∅, w) (WSTemplate evs 0) 8 h s inv_empty) as (R & _ & Hi & Hw);
    [constructor; lia|exact Eb|].
  destruct (goes_within _ _ _ _ Hg R _ Hi Hw) as (n & Hk & Hle). exists n. split; [auto|]. lia.
Qed.
End Count.

Lemma kept_streams {W} (b : once W) d evs w h s h' s' : (forall v, WDepth (snd (b v)) d) ->
  run_builder b (∅, w) (WSTemplate evs 0) = WDone h s -> WGoes h s h' s' ->
  exists n, WKeeps (fun _ => 1) (fst h') s' n /\ n <= 8 * 16 ^ d.
Proof. intros Hd. apply kept. intros v. split; [auto|]. left. intros ?. lia. Qed.
Lemma kept_all {W} (b : once W) d evs w h s h' s' : (forall v, WDepth (snd (b v)) d) ->
  (forall v, WStreaming (snd (b v))) ->
  run_builder b (∅, w) (WSTemplate evs 0) = WDone h s -> WGoes h s h' s' ->
  exists n, WKeeps List.length (fst h') s' n /\ n <= 8 * 16 ^ d.
Proof. intros Hd Hs. apply kept. intros v. split; auto. Qed.
