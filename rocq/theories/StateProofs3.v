(** Proofs for C67, part 3: a program whose closures have no state does, in the machine with
    state, what it does in the machine without. *)
From Coq Require Import String ZArith Lia.
From stdpp Require Import gmap.
From Verif Require Import Text Event Input Parse Selector Machine MachineState.
From Verif Require Import SpecTransform SpecState StateProofs StateProofs2.
Local Open Scope nat_scope.

Section Same.
Context {W : Type}.

Definition sim_many (b : builder W) (b0 : nat -> pipeline) : Prop :=
  forall k w, b k w = (w, map stateless_op (b0 k)).
Definition sim_once (b : once W) (p0 : pipeline) : Prop :=
  forall w, b w = (w, map stateless_op p0).
Definition sim_fun (f : W -> list event -> W * (list event + stream_error))
    (f0 : list event -> list event + stream_error) : Prop :=
  forall w evs, f w evs = (w, f0 evs).
Definition sim_iter (it : iterator W) (bs : list pipeline) : Prop :=
  forall i w, it i w = (w, option_map (fun p w => (w, map stateless_op p)) (nth_error bs i)).
Definition sim_items (i : items W) (bs : list pipeline) : Prop :=
  match i with
  | Items None it => sim_iter it bs
  | Items (Some b) it => exists p0 rest, bs = p0 :: rest /\ sim_once b p0 /\ sim_iter it rest
  end.

Inductive sim : wstrm W -> strm -> Prop :=
| M_template evs i : sim (WSTemplate evs i) (STemplate evs i)
| M_user evs stop : sim (WSUser evs stop) (SUser evs stop)
| M_content d : sim (WSContent d) (SContent d)
| M_shared l : sim (WSShared l) (SShared l)
| M_fallible_none : sim (WSFallible None) (SFallible None)
| M_fallible_ok s s' : sim s s' ->
    sim (WSFallible (Some (WFStart (inl s)))) (SFallible (Some (FStart (inl s'))))
| M_fallible_err e : sim (WSFallible (Some (WFStart (inr e)))) (SFallible (Some (FStart (inr e))))
| M_fallible_emit s s' : sim s s' ->
    sim (WSFallible (Some (WFEmit s))) (SFallible (Some (FEmit s')))
| M_expand_none : sim (WSExpand None) (SExpand None)
| M_expand_start s s' : sim s s' ->
    sim (WSExpand (Some (WXStart s))) (SExpand (Some (XStart s')))
| M_expand_stream s s' : sim s s' ->
    sim (WSExpand (Some (WXEmitStream s))) (SExpand (Some (XEmitStream s')))
| M_expand_close tag :
    sim (WSExpand (Some (WXEmitClosingTag tag))) (SExpand (Some (XEmitClosingTag tag)))
| M_peek s s' b : sim s s' -> sim (WSPeek s b) (SPeek s' b)
| M_combine_none : sim (WSCombine None) (SCombine None)
| M_combine_first s s' t t' : sim s s' -> sim t t' ->
    sim (WSCombine (Some (WCmbFirst s t))) (SCombine (Some (CmbFirst s' t')))
| M_combine_second s s' : sim s s' ->
    sim (WSCombine (Some (WCmbSecond s))) (SCombine (Some (CmbSecond s')))
| M_remove s s' : sim s s' -> sim (WSRemove s) (SRemove s')
| M_single_none : sim (WSSingle None) (SSingle None)
| M_single_start ev s s' : sim s s' ->
    sim (WSSingle (Some (WSEStart ev s))) (SSingle (Some (SEStart ev s')))
| M_single_until tag s s' level : sim s s' ->
    sim (WSSingle (Some (WSEUntilClose tag s level))) (SSingle (Some (SEUntilClose tag s' level)))
| M_select_none l m b b' calls direct : sim_many b b' ->
    sim (WSSelect l m b calls direct None) (SSelect l m b' calls direct None)
| M_select_scan l m b b' calls direct level : sim_many b b' ->
    sim (WSSelect l m b calls direct (Some (WSelScanning level)))
        (SSelect l m b' calls direct (Some (SelScanning level)))
| M_select_active l m b b' calls direct level s s' : sim_many b b' -> sim s s' ->
    sim (WSSelect l m b calls direct (Some (WSelActive level s)))
        (SSelect l m b' calls direct (Some (SelActive level s')))
| M_once_none l : sim (WSSelectOnce l None) (SSelectOnce l None)
| M_once_scan l m b p direct level : sim_once b p ->
    sim (WSSelectOnce l (Some (WSelOScanning m b direct level)))
        (SSelectOnce l (Some (SelOScanning m p direct level)))
| M_once_active l s s' : sim s s' ->
    sim (WSSelectOnce l (Some (WSelOActive s))) (SSelectOnce l (Some (SelOActive s')))
| M_once_pass l :
    sim (WSSelectOnce l (Some WSelOPassthrough)) (SSelectOnce l (Some SelOPassthrough))
| M_sc_none : sim (WSSelectContent None) (SSelectContent None)
| M_sc_open s s' b b' : sim s s' -> sim_cb b b' ->
    sim (WSSelectContent (Some (WSCOpen s b))) (SSelectContent (Some (SCOpen s' b')))
| M_sc_content l s s' tag : sim s s' ->
    sim (WSSelectContent (Some (WSCContent l s tag))) (SSelectContent (Some (SCContent l s' tag)))
| M_sc_close l tag :
    sim (WSSelectContent (Some (WSCClose l tag))) (SSelectContent (Some (SCClose l tag)))
| M_cc st : sim (WSCurrentContent st) (SCurrentContent st)
| M_either first s s' : sim s s' -> sim (WSApplyEither first s) (SApplyEither first s')
| M_ta_none : sim (WSTemplateApply None) (STemplateApply None)
| M_ta_collect s s' f f' : sim s s' -> sim_fun f f' ->
    sim (WSTemplateApply (Some (WTACollect s f))) (STemplateApply (Some (TACollect s' f')))
| M_ta_emit evs i :
    sim (WSTemplateApply (Some (WTAEmit evs i))) (STemplateApply (Some (TAEmit evs i)))
| M_repeat_none : sim (WSRepeat None) (SRepeat None)
| M_repeat_collect s s' i bs : sim s s' -> sim_items i bs ->
    sim (WSRepeat (Some (WRCollect s i))) (SRepeat (Some (RCollect s' bs)))
| M_repeat_next t i bs : sim_items i bs ->
    sim (WSRepeat (Some (WRNext t i))) (SRepeat (Some (RNext t bs)))
| M_repeat_emit t s s' i bs : sim s s' -> sim_items i bs ->
    sim (WSRepeat (Some (WREmit t s i))) (SRepeat (Some (REmit t s' bs)))
| M_roe_none : sim (WSRepeatOrElse None) (SRepeatOrElse None)
| M_roe_start c s s' it bs b p : sim s s' -> sim_iter it bs -> sim_once b p ->
    sim (WSRepeatOrElse (Some (WROEStart c s it b))) (SRepeatOrElse (Some (ROEStart c s' bs p)))
| M_roe_fallback s s' : sim s s' ->
    sim (WSRepeatOrElse (Some (WROEFallback s))) (SRepeatOrElse (Some (ROEFallback s')))
| M_roe_repeat s s' : sim s s' ->
    sim (WSRepeatOrElse (Some (WROERepeat s))) (SRepeatOrElse (Some (ROERepeat s')))
| M_attr_none : sim (WSAttr None) (SAttr None)
| M_attr_start s s' c : sim s s' ->
    sim (WSAttr (Some (WAStart s c))) (SAttr (Some (AStart s' c)))
| M_attr_emit s s' : sim s s' ->
    sim (WSAttr (Some (WAEmit s))) (SAttr (Some (AEmit s')))
with sim_cb : wcontent_builder -> content_builder -> Prop :=
| MC_user b p : sim_once b p -> sim_cb (WCBUser b) (CBUser p)
| MC_remove : sim_cb WCBRemove CBRemove
| MC_replace n n' : sim n n' -> sim_cb (WCBReplace n) (CBReplace n')
| MC_append n n' : sim n n' -> sim_cb (WCBAppend n) (CBAppend n')
| MC_prepend n n' : sim n n' -> sim_cb (WCBPrepend n) (CBPrepend n')
| MC_select direct m b b' : sim_many b b' -> sim_cb (WCBSelect direct m b) (CBSelect direct m b')
| MC_select_once direct m b p : sim_once b p ->
    sim_cb (WCBSelectOnce direct m b) (CBSelectOnce direct m p)
| MC_repeat i bs : sim_items i bs -> sim_cb (WCBRepeat i) (CBRepeat bs).

(** ** Heaps and outcomes *)

Inductive sim_cell : option (wcell W) -> option cell -> Prop :=
| ML_none : sim_cell None None
| ML_borrowed : sim_cell (Some WBorrowed) (Some Borrowed)
| ML_cell s s' : sim s s' -> sim_cell (Some (WCell s)) (Some (Cell s')).
Definition sim_heap (h : gmap loc (wcell W)) (h0 : heap) : Prop :=
  forall l, sim_cell (h !! l) (h0 !! l).
Lemma simh_insert h h0 l c c0 : sim_heap h h0 -> sim_cell (Some c) (Some c0) ->
  sim_heap (<[l := c]> h) (<[l := c0]> h0).
Proof.
  intros Hh Hc k. destruct (decide (l = k)) as [->|Hn].
  - by rewrite !lookup_insert.
  - rewrite !lookup_insert_ne by done. apply Hh.
Qed.
Lemma simh_fresh h h0 : sim_heap h h0 -> wfresh_loc h = fresh_loc h0.
Proof.
  intros Hh. apply fold_locs_eq. intros l. specialize (Hh l).
  inversion Hh; split; intros [? ?]; eauto; congruence.
Qed.

(** the world stays as it is *)
Inductive sim_out {A B} (w : W) (R : A -> B -> Prop) : wout W A -> out B -> Prop :=
| MO_fuel : sim_out w R WOutOfFuel OutOfFuel
| MO_panic : sim_out w R WPanicked Panicked
| MO_done h h0 a a0 : sim_heap h h0 -> R a a0 -> sim_out w R (WDone (h, w) a) (Done h0 a0).
Definition sim_res (x : wstrm W * stream_result) (y : strm * stream_result) : Prop :=
  sim x.1 y.1 /\ x.2 = y.2.

Lemma sim_bind {A B C D} w (R : A -> B -> Prop) (S : C -> D -> Prop) o o' k k' :
  sim_out w R o o' ->
  (forall h h' a a', sim_heap h h' -> R a a' -> sim_out w S (k (h, w) a) (k' h' a')) ->
  sim_out w S (wbind o k) (obind o' k').
Proof. intros [] Hk; cbn; [constructor|constructor|]. by apply Hk. Qed.
Lemma sim_on_ok w o o' dead dead' k k' :
  sim_out w sim_res o o' -> (forall s s', sim s s' -> sim (dead s) (dead' s')) ->
  (forall h h' s s' r, sim_heap h h' -> sim s s' -> sim_out w sim_res (k (h, w) s r) (k' h' s' r)) ->
  sim_out w sim_res (won_ok o dead k) (on_ok o' dead' k').
Proof.
  intros Ho Hd Hk. unfold won_ok, on_ok. eapply sim_bind; [done|].
  intros h h' [s r] [s' r'] Hh [Hs Hr]. cbn in Hs, Hr. subst r'. destruct r as [r|e].
  - by apply Hk.
  - constructor; [done|]. split; cbn; auto.
Qed.
Lemma sim_emit h h' w s s' ev : sim_heap h h' -> sim s s' ->
  sim_out w sim_res (wemit (h, w) s ev) (emit h' s' ev).
Proof. intros. constructor; [done|]. by split. Qed.
Lemma sim_finish h h' w s s' : sim_heap h h' -> sim s s' ->
  sim_out w sim_res (wfinish (h, w) s) (finish h' s').
Proof. intros. constructor; [done|]. by split. Qed.
Lemma sim_fail h h' w s s' e : sim_heap h h' -> sim s s' ->
  sim_out w sim_res (wfail (h, w) s e) (fail h' s' e).
Proof. intros. constructor; [done|]. by split. Qed.
Lemma sim_pass w o o' dead dead' cont cont' :
  sim_out w sim_res o o' -> sim dead dead' -> (forall s s', sim s s' -> sim (cont s) (cont' s')) ->
  sim_out w sim_res (wpassthrough o dead cont) (passthrough o' dead' cont').
Proof.
  intros Ho Hd Hc. unfold wpassthrough, passthrough. eapply sim_on_ok; [done|auto|].
  intros h h' s s' [ev|] Hh Hs; [apply sim_emit|apply sim_finish]; auto.
Qed.
Lemma sim_with_cell h h' w l f f' :
  sim_heap h h' ->
  (forall h h' s s', sim_heap h h' -> sim s s' -> sim_out w sim_res (f (h, w) s) (f' h' s')) ->
  sim_out w sim_res (wwith_cell (h, w) l f) (with_cell h' l f').
Proof.
  intros Hh Hf. unfold wwith_cell, with_cell. cbn [fst snd].
  pose proof (Hh l) as Hl. inversion Hl as [| |s s' Hs E E'].
  - constructor.
  - constructor.
  - eapply sim_bind.
    + apply Hf; [|done]. apply simh_insert; [done|constructor].
    + intros k k' [t r] [t' r'] Hk [Ht Hr]. cbn in Ht, Hr. subst r'. constructor.
      * apply simh_insert; [done|by constructor].
      * split; [constructor|done].
Qed.

(** ** Building *)

Lemma sim_into_stream c : sim (winto_stream c) (into_stream c).
Proof.
  revert c. fix IH 1. intros [evs|d|v|s|z|evs stop|[c|e]]; cbn; constructor. apply IH.
Qed.
Lemma sim_select_new h h' w s s' m b b' direct :
  sim_heap h h' -> sim s s' -> sim_many b b' ->
  exists k k' t t', wselect_new (h, w) s m b direct = ((k, w), t) /\
    select_new h' s' m b' direct = (k', t') /\ sim_heap k k' /\ sim t t'.
Proof.
  intros Hh Hs Hb. unfold wselect_new, select_new. cbn [fst snd]. rewrite <- (simh_fresh h h' Hh).
  do 4 eexists. split_and!; [done..| |by constructor]. apply simh_insert; [done|by constructor].
Qed.
Lemma sim_select_once_new h h' w s s' m b b' direct :
  sim_heap h h' -> sim s s' -> sim_once b b' ->
  exists k k' t t', wselect_once_new (h, w) s m b direct = ((k, w), t) /\
    select_once_new h' s' m b' direct = (k', t') /\ sim_heap k k' /\ sim t t'.
Proof.
  intros Hh Hs Hb. unfold wselect_once_new, select_once_new. cbn [fst snd].
  rewrite <- (simh_fresh h h' Hh).
  do 4 eexists. split_and!; [done..| |by constructor]. apply simh_insert; [done|by constructor].
Qed.
Lemma sim_attr_new h h' w s s' name c :
  sim_heap h h' -> sim s s' -> sim_out w sim (wattr_new (h, w) s name c) (attr_new h' s' name c).
Proof.
  intros Hh Hs. unfold wattr_new, attr_new. destruct name as [name|e].
  - destruct (c name); constructor; [done|]. repeat constructor. done.
  - constructor; [done|constructor].
Qed.
Lemma sim_iter_of bs : sim_iter (fun i w => (w, option_map (fun p w => (w, p))
    (nth_error (map (fun p => map stateless_op p) bs) i))) bs.
Proof.
  intros i w. f_equal. rewrite nth_error_map. by destruct (nth_error bs i).
Qed.

Lemma sim_build_op : forall o h h' w s s', sim_heap h h' -> sim s s' ->
  sim_out w sim (wbuild_op (stateless_op o) (h, w) s) (build_op o h' s').
Proof.
  fix IH 1. intros o h h' w s s' Hh Hs.
  assert (forall p h h' s s', sim_heap h h' -> sim s s' ->
    sim_out w sim (wbuild_fix (map stateless_op p) (h, w) s) (build_fix p h' s')) as IHp.
  { induction p as [|o' p IHp]; intros k k' t t' Hk Ht; cbn.
    - by constructor.
    - eapply sim_bind; [apply IH; done|]. auto. }
  assert (forall p, sim_once (fun w => (w, map stateless_op p)) p) as Ho by (intros p v; done).
  assert (forall b, sim_many (fun k w => (w, map stateless_op (b k))) b) as Hm by (intros b k v; done).
  pose proof sim_iter_of as Hi. pose proof sim_into_stream as Hc.
  destruct o; cbn [stateless_op wbuild_op build_op]; fold (@wbuild_fix W); fold build_fix.
  all: try (repeat first [apply sim_attr_new; assumption | apply IHp; assumption
        | constructor; [assumption|] | progress constructor | assumption | apply Hc | apply Hi
        | apply Ho | apply Hm]; fail).
  - eapply sim_bind; [apply IHp; eassumption|]. intros. constructor; [done|]. by constructor.
  - destruct sel as [m|e]; [|constructor; [done|constructor]].
    destruct (sim_select_new h h' w s s' m _ b direct Hh Hs (Hm b)) as (k & k' & t & t' & E & E' & ? & ?).
    rewrite E, E'. constructor; [done|]. by constructor.
  - destruct sel as [m|e]; [|constructor; [done|constructor]].
    destruct (sim_select_once_new h h' w s s' m _ p direct Hh Hs (Ho p)) as (k & k' & t & t' & E & E' & ? & ?).
    rewrite E, E'. constructor; [done|]. by constructor.
  - destruct sel as [m|e]; (constructor; [done|]); [|constructor].
    apply M_fallible_ok, M_sc_open; [done|]. constructor. apply Hm.
  - destruct sel as [m|e]; (constructor; [done|]); [|constructor].
    apply M_fallible_ok, M_sc_open; [done|]. constructor. apply Ho.
Qed.
Lemma sim_build p : forall h h' w s s', sim_heap h h' -> sim s s' ->
  sim_out w sim (wbuild (map stateless_op p) (h, w) s) (build p h' s').
Proof.
  induction p as [|o p IHp]; intros h h' w s s' Hh Hs; cbn.
  - by constructor.
  - eapply sim_bind; [apply sim_build_op; done|]. auto.
Qed.
Lemma sim_run_builder b p h h' w s s' : sim_once b p -> sim_heap h h' -> sim s s' ->
  sim_out w sim (run_builder b (h, w) s) (build p h' s').
Proof. intros Hb Hh Hs. unfold run_builder. cbn [fst snd]. rewrite Hb. by apply sim_build. Qed.
Lemma sim_build_content b b' h h' w s s' : sim_cb b b' -> sim_heap h h' -> sim s s' ->
  sim_out w sim (wbuild_content b (h, w) s) (build_content b' h' s').
Proof.
  intros Hb Hh Hs. destruct Hb; cbn [wbuild_content build_content].
  - by apply sim_run_builder.
  - constructor; [done|]. by constructor.
  - constructor; [done|]. by repeat constructor.
  - constructor; [done|]. by repeat constructor.
  - constructor; [done|]. by repeat constructor.
  - destruct (sim_select_new h h' w s s' m b b' direct) as (k & k' & t & t' & E & E' & ? & ?); [done..|].
    rewrite E, E'. by constructor.
  - destruct (sim_select_once_new h h' w s s' m b p direct) as (k & k' & t & t' & E & E' & ? & ?); [done..|].
    rewrite E, E'. by constructor.
  - constructor; [done|]. by constructor.
Qed.

(** ** Running *)

Record SimE (ew : wengine W) (e : engine) : Prop :=
  { m_ne : forall h h' w s s', sim_heap h h' -> sim s s' -> sim_out w sim_res (wne ew (h, w) s) (ne e h' s');
    m_sk : forall h h' w s s', sim_heap h h' -> sim s s' -> sim_out w sim_res (wsk ew (h, w) s) (sk e h' s');
    m_dr : forall h h' w s s', sim_heap h h' -> sim s s' -> sim_out w sim_res (wdr ew (h, w) s) (dr e h' s');
    m_co : forall h h' w s s' acc, sim_heap h h' -> sim s s' ->
             sim_out w (=) (wco ew (h, w) s acc) (co e h' s' acc) }.

Lemma sim_peek ew e h h' w s s' : SimE ew e -> sim_heap h h' -> sim s s' ->
  sim_out w sim_res (wpeek ew (h, w) s) (peek e h' s').
Proof.
  intros He Hh Hs. inversion Hs; subst; cbn [wpeek peek]; try constructor.
  destruct b as [ev|].
  - constructor; [done|]. split; [by constructor|done].
  - eapply sim_on_ok; [apply (m_sk _ _ He); eassumption| |].
    + intros. by constructor.
    + intros. constructor; [done|]. split; [by constructor|done].
Qed.

Ltac ms := first [assumption | constructor; assumption | constructor; ms].
Ltac mstep := first
  [ apply sim_emit; [assumption|ms]
  | apply sim_finish; [assumption|ms]
  | apply sim_fail; [assumption|ms] ].

Lemma sim_ne_body ew e h h' w s s' : SimE ew e -> sim_heap h h' -> sim s s' ->
  sim_out w sim_res (wne_body ew (h, w) s) (ne_body e h' s').
Proof.
  intros He Hh Hs.
  assert (forall l, sim_out w sim_res (wne ew (h, w) (WSShared l)) (ne e h' (SShared l))) as Hne
    by (intros; apply (m_ne _ _ He); [done|constructor]).
  assert (forall l, sim_out w sim_res (wsk ew (h, w) (WSShared l)) (sk e h' (SShared l))) as Hsk
    by (intros; apply (m_sk _ _ He); [done|constructor]).
  inversion Hs; subst; cbn [wne_body ne_body].
  all: try (by mstep).
  all: try (by (apply sim_pass; [first [apply (m_ne _ _ He); ms | apply (m_sk _ _ He); ms | apply Hne]|ms
                                |intros; ms])).
  - destruct (nth_error evs i); mstep.
  - destruct evs, stop; mstep.
  - destruct d; mstep.
  - apply sim_with_cell; [done|]. intros. by apply (m_ne _ _ He).
  - eapply sim_on_ok; [apply (m_sk _ _ He); eassumption|intros; ms|].
    intros k k' t t' [[]|] Hk Ht; mstep.
  - destruct b; [mstep|]. eapply sim_on_ok; [apply (m_sk _ _ He); eassumption|intros; ms|].
    intros. constructor; [done|]. split; [ms|done].
  - eapply sim_on_ok; [apply (m_sk _ _ He); eassumption|intros; ms|].
    intros k k' u u' [ev|] Hk Hu; mstep.
  - by apply (m_dr _ _ He).
  - destruct ev; mstep.
  - eapply sim_on_ok; [apply (m_ne _ _ He); eassumption|intros; ms|].
    intros k k' u u' [ev|] Hk Hu; [|mstep].
    destruct (is_opening_tag_for ev tag); [mstep|]. destruct (is_closing_tag_for ev tag); [|mstep].
    destruct level; mstep.
  - eapply sim_on_ok; [apply Hsk|intros; ms|].
    intros k k' u u' [ev|] Hk _; [|mstep].
    destruct (include direct level && matches m ev).
    + eapply sim_bind; [apply sim_run_builder; [intros v; apply H|done|ms]|]. intros. mstep.
    + destruct (adjust level ev); mstep.
  - eapply sim_on_ok; [apply (m_ne _ _ He); eassumption|intros; ms|].
    intros k k' u u' [ev|] Hk Hu; mstep.
  - eapply sim_on_ok; [apply Hsk|intros; ms|].
    intros k k' u u' [ev|] Hk _; [|mstep].
    destruct (include direct level && matches m ev).
    + eapply sim_bind; [apply sim_run_builder; [eassumption|done|ms]|]. intros. mstep.
    + destruct (adjust level ev); mstep.
  - eapply sim_on_ok; [apply (m_ne _ _ He); eassumption|intros; ms|].
    intros k k' u u' [ev|] Hk Hu; mstep.
  - eapply sim_on_ok; [apply (m_sk _ _ He); [done|ms]|intros; ms|].
    intros k k' u u' [ev|] Hk Hu; [|mstep]. destruct ev; try mstep. cbv zeta. cbn [fst snd].
    rewrite <- (simh_fresh k k' Hk). eapply sim_bind.
    + apply sim_build_content; [eassumption| |ms]. apply simh_insert; [done|]. constructor. ms.
    + intros. mstep.
  - eapply sim_on_ok; [apply (m_ne _ _ He); eassumption|intros; ms|].
    intros k k' u u' [ev|] Hk Hu; mstep.
  - eapply sim_on_ok; [apply Hsk|intros; ms|].
    intros k k' u u' [ev|] Hk Hu; [|mstep]. destruct ev; try mstep.
    destruct (ident_eqb _ _); mstep.
  - destruct st as [[[tag l] level]|]; [|mstep].
    assert (forall k k', sim_heap k k' ->
      sim_out w sim_res
        (won_ok (wne ew (k, w) (WSShared l)) (fun _ => WSCurrentContent None) (fun h _ r =>
          match r with
          | None => wfail h (WSCurrentContent None) (missing_close tag)
          | Some ev =>
              match adjust level ev with
              | inl level => wemit h (WSCurrentContent (Some (tag, l, level))) ev
              | inr _ => wfail h (WSCurrentContent None) (missing_close tag)
              end
          end))
        (on_ok (ne e k' (SShared l)) (fun _ => SCurrentContent None) (fun h _ r =>
          match r with
          | None => fail h (SCurrentContent None) (missing_close tag)
          | Some ev =>
              match adjust level ev with
              | inl level => emit h (SCurrentContent (Some (tag, l, level))) ev
              | inr _ => fail h (SCurrentContent None) (missing_close tag)
              end
          end))) as Hnext.
    { intros k k' Hk. eapply sim_on_ok; [apply (m_ne _ _ He); [done|ms]|intros; ms|].
      intros j j' u u' [ev|] Hj Hu; [|mstep]. destruct (adjust level ev); mstep. }
    cbv zeta. destruct (negb (Nat.eqb level 0)); [by apply Hnext|].
    eapply sim_on_ok; [apply sim_with_cell; [done|intros; by apply sim_peek]|intros; ms|].
    intros k k' u u' [ev|] Hk Hu; [|mstep].
    destruct (is_closing_tag_for ev tag); [mstep|by apply Hnext].
  - eapply sim_bind; [apply (m_ne _ _ He); eassumption|].
    intros k k' [u r] [u' r'] Hk [Hu Hr]. cbn in Hu, Hr. subst r'. constructor; [done|].
    split; [ms|done].
  - eapply sim_bind; [apply (m_co _ _ He); eassumption|].
    intros k k' r r' Hk <-. destruct r as [t|err]; [|mstep]. cbn [fst snd].
    match goal with H : sim_fun _ _ |- _ => rewrite H end. destruct (f' t); mstep.
  - apply sim_pass; [apply (m_ne _ _ He); ms|ms|]. intros u u' Hu.
    inversion Hu; subst; ms.
  - eapply sim_bind; [apply (m_co _ _ He); eassumption|].
    intros k k' r r' Hk <-. destruct r as [t|err]; mstep.
  - cbn [fst snd]. destruct i as [[b|] it]; cbn [next_item].
    + destruct H as (p & rest & -> & Hp & Hi).
      eapply sim_bind; [apply sim_run_builder; [eassumption|done|ms]|]. intros. mstep.
    + cbn in H. rewrite (H 0 w). destruct bs as [|p bs]; cbn; [mstep|].
      eapply sim_bind; [apply sim_build; [done|ms]|].
      intros. apply sim_emit; [done|]. constructor; [done|]. intros n v. apply (H (S n)).
  - eapply sim_on_ok; [apply (m_ne _ _ He); eassumption|intros; ms|].
    intros k k' u u' [ev|] Hk Hu; mstep.
  - cbn [fst snd]. rewrite (H0 0 w). destruct bs as [|q bs]; cbn.
    + eapply sim_bind; [apply sim_run_builder; eassumption|]. intros. mstep.
    + apply sim_emit; [done|]. constructor.
      assert (sim_items (Items (Some (fun w => (w, map stateless_op q))) (fun n => it (S n))) (q :: bs)).
      { exists q, bs. split_and!; [done|by intros v|]. intros n v. apply (H0 (S n)). }
      destruct c; ms.
  - eapply sim_on_ok; [apply (m_sk _ _ He); eassumption|intros; ms|].
    intros k k' u u' [ev|] Hk Hu; [|mstep]. destruct ev; mstep.
Qed.

Lemma run_sim n : SimE (wrun n) (run n).
Proof.
  induction n as [|n IH]; split; intros; cbn [wrun wne wsk wdr wco run ne sk dr co].
  1-4: constructor.
  - by apply sim_ne_body.
  - unfold wsk_body, sk_body. eapply sim_bind; [apply (m_ne _ _ IH); eassumption|].
    intros k k' [u r] [u' r'] Hk [Hu Hr]. cbn in Hu, Hr. subst r'.
    destruct r as [[[]|]|]; try (constructor; [done|by split]). by apply (m_sk _ _ IH).
  - unfold wdr_body, dr_body. eapply sim_bind; [apply (m_ne _ _ IH); eassumption|].
    intros k k' [u r] [u' r'] Hk [Hu Hr]. cbn in Hu, Hr. subst r'.
    destruct r as [[]|]; try (constructor; [done|split; [ms|done]]). by apply (m_dr _ _ IH).
  - unfold wco_body, co_body. eapply sim_bind; [apply (m_sk _ _ IH); eassumption|].
    intros k k' [u r] [u' r'] Hk [Hu Hr]. cbn in Hu, Hr. subst r'.
    destruct r as [[]|]; try (by constructor). by apply (m_co _ _ IH).
Qed.

Lemma stateless_same n evs p (w : W) :
  match transform n evs p with
  | OutOfFuel => wtransform n evs (stateless p) w = WOutOfFuel
  | Panicked => wtransform n evs (stateless p) w = WPanicked
  | Done _ r => exists h, wtransform n evs (stateless p) w = WDone (h, w) r
  end.
Proof.
  assert (sim_out w (=) (wtransform n evs (stateless p) w) (transform n evs p)) as H.
  { unfold wtransform, transform. eapply sim_bind.
    - apply sim_run_builder; [by intros v| |constructor]. intros l. rewrite !lookup_empty. constructor.
    - intros. by apply (m_co _ _ (run_sim n)). }
  destruct H; subst; eauto.
Qed.
End Same.
