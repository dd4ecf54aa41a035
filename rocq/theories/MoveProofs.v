(** Programs that are alike run in step also when one of them runs beside other streams: its
    cells are then at other places. *)
From Coq Require Import String ZArith Lia.
From stdpp Require Import gmap.
From Verif Require Import Text Event Input Parse Selector Machine MachineState.
From Verif Require Import SpecTransform SpecState SpecAlike StateProofs StateProofs2.
Local Open Scope nat_scope.

(** The cell [l] of a program that starts with no cells, when it starts with those below [f]. *)
Definition mv (f l : loc) : loc := Pos.pred (l + f).

Section Alike.
Context {W V : Type} (R : W -> V -> Prop) (f0 : loc) (g0 : gmap loc (wcell V)).
Definition mv_state (st : option (ident * loc * nat)) : option (ident * loc * nat) :=
  match st with Some (tag, l, level) => Some (tag, mv f0 l, level) | None => None end.

Definition sim_many (b : builder W) (c : builder V) : Prop := forall k, AlikeOnce R (b k) (c k).
Definition sim_fun (f : W -> list event -> W * (list event + stream_error))
    (g : V -> list event -> V * (list event + stream_error)) : Prop :=
  (forall w v evs, R w v -> R (fst (f w evs)) (fst (g v evs))) /\
  (forall w v evs, R w v -> snd (f w evs) = snd (g v evs)).
Definition sim_once : once W -> once V -> Prop := AlikeOnce R.
Definition sim_iter : iterator W -> iterator V -> Prop := AlikeIter R.
Definition sim_live (f : live W) (g : live V) : Prop :=
  (forall k w v, R w v -> R (fst (f k w)) (fst (g k v))) /\
  (forall k w v, R w v -> snd (f k w) = snd (g k v)).
Definition sim_finite (f : live W) (evs : list event) (stop : option stream_error) : Prop :=
  (forall k w v, R w v -> R (fst (f k w)) v) /\
  (forall k w v, R w v -> k <= length evs -> snd (f k w) = answer evs stop k).
Inductive sim_items : items W -> items V -> Prop :=
| MI_items b c it jt : AlikeItem R b c -> sim_iter it jt -> sim_items (Items b it) (Items c jt).

Inductive sim : wstrm W -> wstrm V -> Prop :=
| M_template evs i : sim (WSTemplate evs i) (WSTemplate evs i)
| M_user evs stop : sim (WSUser evs stop) (WSUser evs stop)
| M_live_none : sim (WSLive None) (WSLive None)
| M_live f g : sim_live f g -> sim (WSLive (Some f)) (WSLive (Some g))
| M_finite_none : sim (WSLive None) (WSUser [] None)
| M_finite f evs stop : sim_finite f evs stop -> sim (WSLive (Some f)) (WSUser evs stop)
| M_content d : sim (WSContent d) (WSContent d)
| M_shared l : sim (WSShared l) (WSShared (mv f0 l))
| M_fallible_none : sim (WSFallible None) (WSFallible None)
| M_fallible_ok s s' : sim s s' ->
    sim (WSFallible (Some (WFStart (inl s)))) (WSFallible (Some (WFStart (inl s'))))
| M_fallible_err e : sim (WSFallible (Some (WFStart (inr e)))) (WSFallible (Some (WFStart (inr e))))
| M_fallible_emit s s' : sim s s' ->
    sim (WSFallible (Some (WFEmit s))) (WSFallible (Some (WFEmit s')))
| M_expand_none : sim (WSExpand None) (WSExpand None)
| M_expand_start s s' : sim s s' ->
    sim (WSExpand (Some (WXStart s))) (WSExpand (Some (WXStart s')))
| M_expand_stream s s' : sim s s' ->
    sim (WSExpand (Some (WXEmitStream s))) (WSExpand (Some (WXEmitStream s')))
| M_expand_close tag :
    sim (WSExpand (Some (WXEmitClosingTag tag))) (WSExpand (Some (WXEmitClosingTag tag)))
| M_peek s s' b : sim s s' -> sim (WSPeek s b) (WSPeek s' b)
| M_combine_none : sim (WSCombine None) (WSCombine None)
| M_combine_first s s' t t' : sim s s' -> sim t t' ->
    sim (WSCombine (Some (WCmbFirst s t))) (WSCombine (Some (WCmbFirst s' t')))
| M_combine_second s s' : sim s s' ->
    sim (WSCombine (Some (WCmbSecond s))) (WSCombine (Some (WCmbSecond s')))
| M_remove s s' : sim s s' -> sim (WSRemove s) (WSRemove s')
| M_single_none : sim (WSSingle None) (WSSingle None)
| M_single_start ev s s' : sim s s' ->
    sim (WSSingle (Some (WSEStart ev s))) (WSSingle (Some (WSEStart ev s')))
| M_single_until tag s s' level : sim s s' ->
    sim (WSSingle (Some (WSEUntilClose tag s level))) (WSSingle (Some (WSEUntilClose tag s' level)))
| M_select_none l m b b' calls direct : sim_many b b' ->
    sim (WSSelect l m b calls direct None) (WSSelect (mv f0 l) m b' calls direct None)
| M_select_scan l m b b' calls direct level : sim_many b b' ->
    sim (WSSelect l m b calls direct (Some (WSelScanning level)))
        (WSSelect (mv f0 l) m b' calls direct (Some (WSelScanning level)))
| M_select_active l m b b' calls direct level s s' : sim_many b b' -> sim s s' ->
    sim (WSSelect l m b calls direct (Some (WSelActive level s)))
        (WSSelect (mv f0 l) m b' calls direct (Some (WSelActive level s')))
| M_once_none l : sim (WSSelectOnce l None) (WSSelectOnce (mv f0 l) None)
| M_once_scan l m b p direct level : sim_once b p ->
    sim (WSSelectOnce l (Some (WSelOScanning m b direct level)))
        (WSSelectOnce (mv f0 l) (Some (WSelOScanning m p direct level)))
| M_once_active l s s' : sim s s' ->
    sim (WSSelectOnce l (Some (WSelOActive s))) (WSSelectOnce (mv f0 l) (Some (WSelOActive s')))
| M_once_pass l :
    sim (WSSelectOnce l (Some WSelOPassthrough)) (WSSelectOnce (mv f0 l) (Some WSelOPassthrough))
| M_sc_none : sim (WSSelectContent None) (WSSelectContent None)
| M_sc_open s s' b b' : sim s s' -> sim_cb b b' ->
    sim (WSSelectContent (Some (WSCOpen s b))) (WSSelectContent (Some (WSCOpen s' b')))
| M_sc_content l s s' tag : sim s s' ->
    sim (WSSelectContent (Some (WSCContent l s tag))) (WSSelectContent (Some (WSCContent (mv f0 l) s' tag)))
| M_sc_close l tag :
    sim (WSSelectContent (Some (WSCClose l tag))) (WSSelectContent (Some (WSCClose (mv f0 l) tag)))
| M_cc st : sim (WSCurrentContent st) (WSCurrentContent (mv_state st))
| M_either first s s' : sim s s' -> sim (WSApplyEither first s) (WSApplyEither first s')
| M_ta_none : sim (WSTemplateApply None) (WSTemplateApply None)
| M_ta_collect s s' f f' : sim s s' -> sim_fun f f' ->
    sim (WSTemplateApply (Some (WTACollect s f))) (WSTemplateApply (Some (WTACollect s' f')))
| M_ta_emit evs i :
    sim (WSTemplateApply (Some (WTAEmit evs i))) (WSTemplateApply (Some (WTAEmit evs i)))
| M_repeat_none : sim (WSRepeat None) (WSRepeat None)
| M_repeat_collect s s' i bs : sim s s' -> sim_items i bs ->
    sim (WSRepeat (Some (WRCollect s i))) (WSRepeat (Some (WRCollect s' bs)))
| M_repeat_next t i bs : sim_items i bs ->
    sim (WSRepeat (Some (WRNext t i))) (WSRepeat (Some (WRNext t bs)))
| M_repeat_emit t s s' i bs : sim s s' -> sim_items i bs ->
    sim (WSRepeat (Some (WREmit t s i))) (WSRepeat (Some (WREmit t s' bs)))
| M_roe_none : sim (WSRepeatOrElse None) (WSRepeatOrElse None)
| M_roe_start c s s' it bs b p : sim s s' -> sim_iter it bs -> sim_once b p ->
    sim (WSRepeatOrElse (Some (WROEStart c s it b))) (WSRepeatOrElse (Some (WROEStart c s' bs p)))
| M_roe_fallback s s' : sim s s' ->
    sim (WSRepeatOrElse (Some (WROEFallback s))) (WSRepeatOrElse (Some (WROEFallback s')))
| M_roe_repeat s s' : sim s s' ->
    sim (WSRepeatOrElse (Some (WROERepeat s))) (WSRepeatOrElse (Some (WROERepeat s')))
| M_attr_none : sim (WSAttr None) (WSAttr None)
| M_attr_start s s' c : sim s s' ->
    sim (WSAttr (Some (WAStart s c))) (WSAttr (Some (WAStart s' c)))
| M_attr_emit s s' : sim s s' ->
    sim (WSAttr (Some (WAEmit s))) (WSAttr (Some (WAEmit s')))
with sim_cb : @wcontent_builder W -> @wcontent_builder V -> Prop :=
| MC_user b p : sim_once b p -> sim_cb (WCBUser b) (WCBUser p)
| MC_remove : sim_cb WCBRemove WCBRemove
| MC_replace n n' : sim n n' -> sim_cb (WCBReplace n) (WCBReplace n')
| MC_append n n' : sim n n' -> sim_cb (WCBAppend n) (WCBAppend n')
| MC_prepend n n' : sim n n' -> sim_cb (WCBPrepend n) (WCBPrepend n')
| MC_select direct m b b' : sim_many b b' -> sim_cb (WCBSelect direct m b) (WCBSelect direct m b')
| MC_select_once direct m b p : sim_once b p ->
    sim_cb (WCBSelectOnce direct m b) (WCBSelectOnce direct m p)
| MC_repeat i bs : sim_items i bs -> sim_cb (WCBRepeat i) (WCBRepeat bs).


(** ** Heaps and outcomes *)

Inductive sim_cell : option (wcell W) -> option (wcell V) -> Prop :=
| ML_none : sim_cell None None
| ML_borrowed : sim_cell (Some WBorrowed) (Some WBorrowed)
| ML_cell s s' : sim s s' -> sim_cell (Some (WCell s)) (Some (WCell s')).
Definition sim_heap (h : wheap W) (h' : wheap V) : Prop :=
  ((forall l, sim_cell (fst h !! l) (fst h' !! mv f0 l)) /\
   (forall k, (k < f0)%positive -> fst h' !! k = g0 !! k)) /\ R (snd h) (snd h').
Lemma mv_inj l k : mv f0 l = mv f0 k -> l = k.
Proof. unfold mv. lia. Qed.
Lemma mv_ge l : (f0 <= mv f0 l)%positive.
Proof. unfold mv. lia. Qed.
Lemma mv_all k : (f0 <= k)%positive -> exists l, k = mv f0 l.
Proof. intros H. unfold mv. exists (Pos.succ k - f0)%positive. lia. Qed.
Lemma simh_insert h h' l c c' w v : sim_heap h h' -> sim_cell (Some c) (Some c') -> R w v ->
  sim_heap (<[l := c]> (fst h), w) (<[mv f0 l := c']> (fst h'), v).
Proof.
  intros [[Hh Hg] _] Hc Hw. split; [|done]. split.
  - intros k. cbn. destruct (decide (l = k)) as [->|Hn].
    + by rewrite !lookup_insert.
    + rewrite !lookup_insert_ne; [apply Hh| |done]. intros E. by apply mv_inj in E.
  - intros k Hk. cbn. rewrite lookup_insert_ne; [by apply Hg|]. pose proof (mv_ge l). lia.
Qed.
Lemma simh_world h h' w v : sim_heap h h' -> R w v -> sim_heap (fst h, w) (fst h', v).
Proof. by intros [? _]. Qed.
(** [f0] is the next place in [g0]. *)
Context (Hf0 : wfresh_loc g0 = f0).
Lemma simh_fresh h h' : sim_heap h h' -> wfresh_loc (fst h') = mv f0 (wfresh_loc (fst h)).
Proof.
  intros [[Hh Hg] _].
  assert (forall l, is_Some (fst h !! l) <-> is_Some (fst h' !! mv f0 l)) as Hd.
  { intros l. specialize (Hh l). inversion Hh; split; intros [? ?]; eauto; congruence. }
  unfold wfresh_loc in *.
  destruct (fold_locs (fst h)) as [H1 H2], (fold_locs (fst h')) as [H1' H2'], (fold_locs g0) as [H1g H2g].
  rewrite Hf0 in H1g, H2g.
  assert (forall l, is_Some (fst h' !! l) -> (l < f0)%positive \/ exists k, l = mv f0 k /\ is_Some (fst h !! k)) as Hk.
  { intros l Hl. destruct (decide (l < f0)%positive) as [?|Hn]; [by left|]. right.
    destruct (mv_all l) as [k ->]; [lia|]. exists k. split; [done|]. by apply Hd. }
  destruct H2 as [E|(l & Hl & E)].
  - (* no cells of its own *)
    rewrite E. replace (mv f0 1) with f0 by (unfold mv; lia).
    destruct H2' as [E'|(l' & Hl' & E')].
    + rewrite E'. destruct H2g as [->|(k & Hkg & ->)]; [done|].
      rewrite <- Hg in Hkg by lia. apply H1' in Hkg. lia.
    + rewrite E'. destruct (Hk l' Hl') as [Hlt|(k & -> & Hs)]; [|apply H1 in Hs; lia].
      destruct H2g as [->|(k & Hkg & Ek)]; [lia|]. rewrite <- Hg in Hkg by lia. apply H1' in Hkg. lia.
  - rewrite E. apply Hd in Hl. pose proof (H1' _ Hl) as Hle.
    destruct H2' as [E'|(l' & Hl' & E')]; [rewrite E' in Hle; lia|].
    rewrite E' in *. destruct (Hk l' Hl') as [Hlt|(k & -> & Hs)]; [pose proof (mv_ge l); unfold mv in *; lia|].
    apply H1 in Hs. rewrite E in Hs. unfold mv in *. lia.
Qed.

Inductive sim_out {A B} (Q : A -> B -> Prop) : wout W A -> wout V B -> Prop :=
| MO_fuel : sim_out Q WOutOfFuel WOutOfFuel
| MO_panic : sim_out Q WPanicked WPanicked
| MO_done h h' a a' : sim_heap h h' -> Q a a' -> sim_out Q (WDone h a) (WDone h' a').
Definition sim_res (x : wstrm W * stream_result) (y : wstrm V * stream_result) : Prop :=
  sim x.1 y.1 /\ x.2 = y.2.

Lemma sim_bind {A B C D} (Q : A -> B -> Prop) (S : C -> D -> Prop) o o' k k' :
  sim_out Q o o' ->
  (forall h h' a a', sim_heap h h' -> Q a a' -> sim_out S (k h a) (k' h' a')) ->
  sim_out S (wbind o k) (wbind o' k').
Proof. intros [] Hk; cbn; [constructor|constructor|]. by apply Hk. Qed.
Lemma sim_on_ok o o' dead dead' k k' :
  sim_out sim_res o o' -> (forall s s', sim s s' -> sim (dead s) (dead' s')) ->
  (forall h h' s s' r, sim_heap h h' -> sim s s' -> sim_out sim_res (k h s r) (k' h' s' r)) ->
  sim_out sim_res (won_ok o dead k) (won_ok o' dead' k').
Proof.
  intros Ho Hd Hk. unfold won_ok. eapply sim_bind; [done|].
  intros h h' [s r] [s' r'] Hh [Hs Hr]. cbn in Hs, Hr. subst r'. destruct r as [r|e].
  - by apply Hk.
  - constructor; [done|]. split; cbn; auto.
Qed.
Lemma sim_emit h h' s s' ev : sim_heap h h' -> sim s s' ->
  sim_out sim_res (wemit h s ev) (wemit h' s' ev).
Proof. intros. constructor; [done|]. by split. Qed.
Lemma sim_finish h h' s s' : sim_heap h h' -> sim s s' ->
  sim_out sim_res (wfinish h s) (wfinish h' s').
Proof. intros. constructor; [done|]. by split. Qed.
Lemma sim_fail h h' s s' e : sim_heap h h' -> sim s s' ->
  sim_out sim_res (wfail h s e) (wfail h' s' e).
Proof. intros. constructor; [done|]. by split. Qed.
Lemma sim_pass o o' dead dead' cont cont' :
  sim_out sim_res o o' -> sim dead dead' -> (forall s s', sim s s' -> sim (cont s) (cont' s')) ->
  sim_out sim_res (wpassthrough o dead cont) (wpassthrough o' dead' cont').
Proof.
  intros Ho Hd Hc. unfold wpassthrough. eapply sim_on_ok; [done|auto|].
  intros h h' s s' [ev|] Hh Hs; [apply sim_emit|apply sim_finish]; auto.
Qed.
Lemma sim_with_cell h h' l f f' :
  sim_heap h h' ->
  (forall h h' s s', sim_heap h h' -> sim s s' -> sim_out sim_res (f h s) (f' h' s')) ->
  sim_out sim_res (wwith_cell h l f) (wwith_cell h' (mv f0 l) f').
Proof.
  intros Hh Hf. unfold wwith_cell.
  pose proof (proj1 (proj1 Hh) l) as Hl. inversion Hl as [| |s s' Hs E E'].
  - constructor.
  - constructor.
  - eapply sim_bind.
    + apply Hf; [|done]. apply simh_insert; [done|constructor|apply Hh].
    + intros k k' [t r] [t' r'] Hk [Ht Hr]. cbn in Ht, Hr. subst r'. constructor.
      * apply simh_insert; [done|by constructor|apply Hk].
      * split; [constructor|done].
Qed.

(** ** Building *)

Lemma sim_into_stream c : sim (winto_stream c) (winto_stream c).
Proof.
  revert c. fix IH 1. intros [evs|d|v|s|z|evs stop|[c|e]]; cbn; constructor. apply IH.
Qed.
Lemma sim_content_stream c c' : AlikeContent R c c' -> sim (wcontent_stream c) (wcontent_stream c').
Proof.
  induction 1 as [c|f g H1 H2|f evs stop H1 H2|c c' _ IH]; cbn.
  - apply sim_into_stream.
  - by constructor.
  - by constructor.
  - by constructor.
Qed.
Lemma sim_select_new h h' s s' m b b' direct :
  sim_heap h h' -> sim s s' -> sim_many b b' ->
  exists k k' t t', wselect_new h s m b direct = (k, t) /\
    wselect_new h' s' m b' direct = (k', t') /\ sim_heap k k' /\ sim t t'.
Proof.
  intros Hh Hs Hb. unfold wselect_new. cbn [fst snd]. rewrite (simh_fresh h h' Hh).
  do 4 eexists. split_and!; [done..| |by constructor].
  apply simh_insert; [done|by constructor|apply Hh].
Qed.
Lemma sim_select_once_new h h' s s' m b b' direct :
  sim_heap h h' -> sim s s' -> sim_once b b' ->
  exists k k' t t', wselect_once_new h s m b direct = (k, t) /\
    wselect_once_new h' s' m b' direct = (k', t') /\ sim_heap k k' /\ sim t t'.
Proof.
  intros Hh Hs Hb. unfold wselect_once_new. cbn [fst snd].
  rewrite (simh_fresh h h' Hh).
  do 4 eexists. split_and!; [done..| |by constructor].
  apply simh_insert; [done|by constructor|apply Hh].
Qed.
Lemma sim_attr_new h h' s s' name c :
  sim_heap h h' -> sim s s' -> sim_out sim (wattr_new h s name c) (wattr_new h' s' name c).
Proof.
  intros Hh Hs. unfold wattr_new. destruct name as [name|e].
  - destruct (c name); constructor; [done|]. repeat constructor. done.
  - constructor; [done|constructor].
Qed.

Lemma sim_build_op : forall o o', AlikeOp R o o' -> forall h h' s s', sim_heap h h' -> sim s s' ->
  sim_out sim (wbuild_op o h s) (wbuild_op o' h' s').
Proof.
  fix IH 3. intros o o' Ho h h' s s' Hh Hs.
  assert (forall p q (Hp : Alike R p q) h h' s s', sim_heap h h' -> sim s s' ->
    sim_out sim (wbuild_fix p h s) (wbuild_fix q h' s')) as IHp.
  { fix IHp 3. intros p q [|a a' p' q' Ha Hp] k k' t t' Hk Ht; cbn.
    - by constructor.
    - eapply sim_bind; [exact (IH a a' Ha k k' t t' Hk Ht)|].
      intros j j' u u' Hj Hu. exact (IHp p' q' Hp j j' u u' Hj Hu). }
  pose proof sim_content_stream as Hc.
  destruct Ho; cbn [wbuild_op]; fold (@wbuild_fix W); fold (@wbuild_fix V).
  all: try (repeat first [assumption | apply sim_attr_new; assumption | apply IHp; assumption
        | constructor; [assumption|] | apply Hc; assumption | progress constructor]; fail).
  - eapply sim_bind; [apply IHp; eassumption|]. intros. constructor; [done|]. by constructor.
  - destruct sel as [m|e]; [|constructor; [done|constructor]].
    destruct (sim_select_new h h' s s' m b c direct Hh Hs) as (k & k' & t & t' & E & E' & ? & ?); [done|].
    rewrite E, E'. constructor; [done|]. by constructor.
  - destruct sel as [m|e]; [|constructor; [done|constructor]].
    destruct (sim_select_once_new h h' s s' m b c direct Hh Hs) as (k & k' & t & t' & E & E' & ? & ?); [done|].
    rewrite E, E'. constructor; [done|]. by constructor.
  - destruct sel as [m|e]; (constructor; [done|]); [|constructor].
    apply M_fallible_ok, M_sc_open; [done|]. by constructor.
  - destruct sel as [m|e]; (constructor; [done|]); [|constructor].
    apply M_fallible_ok, M_sc_open; [done|]. by constructor.
Qed.
Lemma sim_build p q : Alike R p q -> forall h h' s s', sim_heap h h' -> sim s s' ->
  sim_out sim (wbuild p h s) (wbuild q h' s').
Proof.
  induction 1 as [|o o' p q Ho Hp IHp]; intros h h' s s' Hh Hs; cbn.
  - by constructor.
  - eapply sim_bind; [apply sim_build_op; done|]. auto.
Qed.
Lemma sim_run_builder b c h h' s s' : sim_once b c -> sim_heap h h' -> sim s s' ->
  sim_out sim (run_builder b h s) (run_builder c h' s').
Proof.
  intros [b' c' Hw Hp] Hh Hs. unfold run_builder. pose proof (proj2 Hh) as HR.
  specialize (Hw _ _ HR). specialize (Hp _ _ HR). destruct (b' _), (c' _).
  apply sim_build; [done| |done]. by apply simh_world.
Qed.
Lemma sim_build_content b b' h h' s s' : sim_cb b b' -> sim_heap h h' -> sim s s' ->
  sim_out sim (wbuild_content b h s) (wbuild_content b' h' s').
Proof.
  intros Hb Hh Hs. destruct Hb; cbn [wbuild_content].
  - by apply sim_run_builder.
  - constructor; [done|]. by constructor.
  - constructor; [done|]. by repeat constructor.
  - constructor; [done|]. by repeat constructor.
  - constructor; [done|]. by repeat constructor.
  - destruct (sim_select_new h h' s s' m b b' direct) as (k & k' & t & t' & E & E' & ? & ?); [done..|].
    rewrite E, E'. by constructor.
  - destruct (sim_select_once_new h h' s s' m b p direct) as (k & k' & t & t' & E & E' & ? & ?); [done..|].
    rewrite E, E'. by constructor.
  - constructor; [done|]. by constructor.
Qed.

(** ** Running *)

Record SimE (e : wengine W) (e' : wengine V) : Prop :=
  { m_ne : forall h h' s s', sim_heap h h' -> sim s s' -> sim_out sim_res (wne e h s) (wne e' h' s');
    m_sk : forall h h' s s', sim_heap h h' -> sim s s' -> sim_out sim_res (wsk e h s) (wsk e' h' s');
    m_dr : forall h h' s s', sim_heap h h' -> sim s s' -> sim_out sim_res (wdr e h s) (wdr e' h' s');
    m_co : forall h h' s s' acc, sim_heap h h' -> sim s s' ->
             sim_out (=) (wco e h s acc) (wco e' h' s' acc) }.

Lemma sim_peek e e' h h' s s' : SimE e e' -> sim_heap h h' -> sim s s' ->
  sim_out sim_res (wpeek e h s) (wpeek e' h' s').
Proof.
  intros He Hh Hs. inversion Hs; subst; cbn [wpeek]; try constructor.
  destruct b as [ev|].
  - constructor; [done|]. split; [by constructor|done].
  - eapply sim_on_ok; [apply (m_sk _ _ He); eassumption| |].
    + intros. by constructor.
    + intros. constructor; [done|]. split; [by constructor|done].
Qed.

Ltac ms := first [assumption | constructor; assumption | constructor; ms].
Ltac mstep := first
  [ apply sim_emit; [assumption|ms]
  | apply sim_finish; [assumption|ms]
  | apply sim_fail; [assumption|ms] ].

Lemma sim_iter_next it jt : sim_iter it jt -> sim_iter (fun n => it (S n)) (fun n => jt (S n)).
Proof. intros [it' jt' Hw Hi]. constructor; intros; [by apply Hw|by apply Hi]. Qed.

Lemma sim_ne_body e e' h h' s s' : SimE e e' -> sim_heap h h' -> sim s s' ->
  sim_out sim_res (wne_body e h s) (wne_body e' h' s').
Proof.
  intros He Hh Hs.
  assert (forall l, sim_out sim_res (wne e h (WSShared l)) (wne e' h' (WSShared (mv f0 l)))) as Hne
    by (intros; apply (m_ne _ _ He); [done|constructor]).
  assert (forall l, sim_out sim_res (wsk e h (WSShared l)) (wsk e' h' (WSShared (mv f0 l)))) as Hsk
    by (intros; apply (m_sk _ _ He); [done|constructor]).
  inversion Hs; subst; cbn [wne_body].
  all: try (by mstep).
  all: try (by (apply sim_pass; [first [apply (m_ne _ _ He); ms | apply (m_sk _ _ He); ms | apply Hne]|ms
                                |intros; ms])).
  - destruct (nth_error evs i); mstep.
  - destruct evs, stop; mstep.
  - pose proof (proj2 Hh) as HR. match goal with H : sim_live _ _ |- _ => destruct H as [Hw Hr] end.
    pose proof (Hw 0 _ _ HR) as Hw0. pose proof (Hr 0 _ _ HR) as Hr0.
    destruct (f 0 (snd h)) as [w [[ev|]|err]], (g 0 (snd h')) as [v r]; cbn in Hw0, Hr0; subst r.
    + apply sim_emit; [by apply simh_world|]. constructor. split; intros k; [apply (Hw (S k))|apply (Hr (S k))].
    + constructor; [by apply simh_world|]. split; [constructor|done].
    + constructor; [by apply simh_world|]. split; [constructor|done].
  - pose proof (proj2 Hh) as HR. match goal with H : sim_finite _ _ _ |- _ => destruct H as [Hw Hr] end.
    pose proof (Hw 0 _ _ HR) as Hw0. pose proof (Hr 0 _ _ HR ltac:(lia)) as Hr0.
    assert (sim_heap (fst h, fst (f 0 (snd h))) h') as Hh'.
    { split; [apply Hh|done]. }
    destruct (f 0 (snd h)) as [w r]. cbn in Hr0, Hh'. subst r.
    destruct evs as [|ev evs]; [destruct stop as [err|]|]; cbn [answer nth_error].
    + constructor; [done|]. split; [constructor|done].
    + constructor; [done|]. split; [constructor|done].
    + apply sim_emit; [done|]. constructor. split; [intros k; apply (Hw (S k))|].
      intros k w' v' HR' Hk. apply (Hr (S k) w' v' HR'). cbn. lia.
  - destruct d; mstep.
  - apply sim_with_cell; [done|]. intros. by apply (m_ne _ _ He).
  - eapply sim_on_ok; [apply (m_sk _ _ He); eassumption|intros; ms|].
    intros k k' t t' [[]|] Hk Ht; mstep.
  - destruct b; [mstep|]. eapply sim_on_ok; [apply (m_sk _ _ He); eassumption|intros; ms|].
    intros. constructor; [done|]. split; [ms|done].
  - eapply sim_on_ok; [apply (m_sk _ _ He); eassumption|intros; ms|].
    intros k k' u u' [ev|] Hk Hu; mstep.
  - by apply (m_dr _ _ He).
  - destruct ev; mstep.
  - eapply sim_on_ok; [apply (m_ne _ _ He); eassumption|intros; ms|].
    intros k k' u u' [ev|] Hk Hu; [|mstep].
    destruct (is_opening_tag_for ev tag); [mstep|]. destruct (is_closing_tag_for ev tag); [|mstep].
    destruct level; mstep.
  - eapply sim_on_ok; [apply Hsk|intros; ms|].
    intros k k' u u' [ev|] Hk _; [|mstep].
    destruct (include direct level && matches m ev).
    + eapply sim_bind; [apply sim_run_builder; [by apply H|done|ms]|]. intros. mstep.
    + destruct (adjust level ev); mstep.
  - eapply sim_on_ok; [apply (m_ne _ _ He); eassumption|intros; ms|].
    intros k k' u u' [ev|] Hk Hu; mstep.
  - eapply sim_on_ok; [apply Hsk|intros; ms|].
    intros k k' u u' [ev|] Hk _; [|mstep].
    destruct (include direct level && matches m ev).
    + eapply sim_bind; [apply sim_run_builder; [eassumption|done|ms]|]. intros. mstep.
    + destruct (adjust level ev); mstep.
  - eapply sim_on_ok; [apply (m_ne _ _ He); eassumption|intros; ms|].
    intros k k' u u' [ev|] Hk Hu; mstep.
  - eapply sim_on_ok; [apply (m_sk _ _ He); [done|ms]|intros; ms|].
    intros k k' u u' [ev|] Hk Hu; [|mstep]. destruct ev; try mstep. cbv zeta.
    rewrite (simh_fresh k k' Hk). eapply sim_bind.
    + apply sim_build_content; [eassumption| |ms].
      apply simh_insert; [done| |apply Hk]. constructor. ms.
    + intros. mstep.
  - eapply sim_on_ok; [apply (m_ne _ _ He); eassumption|intros; ms|].
    intros k k' u u' [ev|] Hk Hu; mstep.
  - eapply sim_on_ok; [apply Hsk|intros; ms|].
    intros k k' u u' [ev|] Hk Hu; [|mstep]. destruct ev; try mstep.
    destruct (ident_eqb _ _); mstep.
  - destruct st as [[[tag l] level]|]; cbn [mv_state]; [|apply sim_finish; [done|apply (M_cc None)]].
    assert (forall k k', sim_heap k k' ->
      sim_out sim_res
        (won_ok (wne e k (WSShared l)) (fun _ => WSCurrentContent None) (fun h _ r =>
          match r with
          | None => wfail h (WSCurrentContent None) (missing_close tag)
          | Some ev =>
              match adjust level ev with
              | inl level => wemit h (WSCurrentContent (Some (tag, l, level))) ev
              | inr _ => wfail h (WSCurrentContent None) (missing_close tag)
              end
          end))
        (won_ok (wne e' k' (WSShared (mv f0 l))) (fun _ => WSCurrentContent None) (fun h _ r =>
          match r with
          | None => wfail h (WSCurrentContent None) (missing_close tag)
          | Some ev =>
              match adjust level ev with
              | inl level => wemit h (WSCurrentContent (Some (tag, mv f0 l, level))) ev
              | inr _ => wfail h (WSCurrentContent None) (missing_close tag)
              end
          end))) as Hnext.
    { intros k k' Hk. eapply sim_on_ok; [apply (m_ne _ _ He); [done|ms]|intros; ms|].
      intros j j' u u' [ev|] Hj Hu; [|mstep]. destruct (adjust level ev); mstep. }
    cbv zeta. destruct (negb (Nat.eqb level 0)); [by apply Hnext|].
    eapply sim_on_ok; [apply sim_with_cell; [done|intros; by apply sim_peek]|intros; ms|].
    intros k k' u u' [ev|] Hk Hu; [|mstep].
    destruct (is_closing_tag_for ev tag); [mstep|by apply Hnext].
  - eapply sim_bind; [apply (m_ne _ _ He); eassumption|].
    intros k k' [u r] [u' r'] Hk [Hu Hr]. cbn in Hu, Hr. subst r'. constructor; [done|].
    split; [ms|done].
  - eapply sim_bind; [apply (m_co _ _ He); eassumption|].
    intros k k' r r' Hk <-. destruct r as [t|err]; [|mstep].
    match goal with H : sim_fun _ _ |- _ => destruct H as [Hw Hf] end.
    pose proof (proj2 Hk) as HR. specialize (Hw _ _ t HR). specialize (Hf _ _ t HR).
    destruct (f (snd k) t) as [w r], (f' (snd k') t) as [v r']. cbn in Hw, Hf. subst r'.
    pose proof (simh_world k k' w v Hk Hw). destruct r; mstep.
  - apply sim_pass; [apply (m_ne _ _ He); ms|ms|]. intros u u' Hu.
    inversion Hu; subst; ms.
  - eapply sim_bind; [apply (m_co _ _ He); eassumption|].
    intros k k' r r' Hk <-. destruct r as [t|err]; mstep.
  - match goal with H : sim_items _ _ |- _ => destruct H as [b c it jt Hb Hi] end.
    destruct Hb as [|b c Hb]; cbn [next_item].
    + destruct Hi as [it jt Hw Hi].
      pose proof (proj2 Hh) as HR. pose proof (Hw 0 _ _ HR) as Hw0. pose proof (Hi 0 _ _ HR) as Hi0.
      destruct (it 0 (snd h)) as [w r], (jt 0 (snd h')) as [v r']. cbn in Hw0, Hi0.
      pose proof (simh_world h h' w v Hh Hw0) as Hh'.
      assert (sim_items (Items None (fun n => it (S n))) (Items None (fun n => jt (S n)))).
      { constructor; [constructor|]. apply sim_iter_next. by constructor. }
      destruct Hi0 as [|b c Hb]; [mstep|].
      eapply sim_bind; [apply sim_run_builder; [exact Hb|done|ms]|]. intros. mstep.
    + assert (sim_items (Items None it) (Items None jt)) by (constructor; [constructor|done]).
      destruct h as [h w], h' as [h' w'].
      eapply sim_bind; [apply sim_run_builder; [exact Hb|done|ms]|]. intros. mstep.
  - eapply sim_on_ok; [apply (m_ne _ _ He); eassumption|intros; ms|].
    intros k k' u u' [ev|] Hk Hu; mstep.
  - match goal with H : sim_iter _ _ |- _ => destruct H as [it jt Hw Hi] end.
    pose proof (proj2 Hh) as HR. pose proof (Hw 0 _ _ HR) as Hw0. pose proof (Hi 0 _ _ HR) as Hi0.
    destruct (it 0 (snd h)) as [w r], (jt 0 (snd h')) as [v r']. cbn in Hw0, Hi0.
    pose proof (simh_world h h' w v Hh Hw0) as Hh'.
    destruct Hi0 as [|b0 c0 Hb].
    + eapply sim_bind; [apply sim_run_builder; eassumption|]. intros. mstep.
    + apply sim_emit; [done|]. constructor.
      assert (sim_items (Items (Some b0) (fun n => it (S n))) (Items (Some c0) (fun n => jt (S n)))).
      { constructor; [by constructor|]. apply sim_iter_next. by constructor. }
      destruct c; ms.
  - eapply sim_on_ok; [apply (m_sk _ _ He); eassumption|intros; ms|].
    intros k k' u u' [ev|] Hk Hu; [|mstep]. destruct ev; mstep.
Qed.

Lemma run_sim n : SimE (wrun n) (wrun n).
Proof.
  induction n as [|n IH]; split; intros; cbn [wrun wne wsk wdr wco].
  1-4: constructor.
  - by apply sim_ne_body.
  - unfold wsk_body. eapply sim_bind; [apply (m_ne _ _ IH); eassumption|].
    intros k k' [u r] [u' r'] Hk [Hu Hr]. cbn in Hu, Hr. subst r'.
    destruct r as [[[]|]|]; try (constructor; [done|by split]). by apply (m_sk _ _ IH).
  - unfold wdr_body. eapply sim_bind; [apply (m_ne _ _ IH); eassumption|].
    intros k k' [u r] [u' r'] Hk [Hu Hr]. cbn in Hu, Hr. subst r'.
    destruct r as [[]|]; try (constructor; [done|split; [ms|done]]). by apply (m_dr _ _ IH).
  - unfold wco_body. eapply sim_bind; [apply (m_sk _ _ IH); eassumption|].
    intros k k' [u r] [u' r'] Hk [Hu Hr]. cbn in Hu, Hr. subst r'.
    destruct r as [[]|]; try (by constructor). by apply (m_co _ _ IH).
Qed.

End Alike.
