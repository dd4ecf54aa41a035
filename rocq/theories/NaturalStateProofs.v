(** Proofs for C80: programs with state that are alike run in step on templates that are alike. *)
From Coq Require Import String ZArith Lia.
From stdpp Require Import gmap.
From Verif Require Import Text Event Input Parse Selector Machine MachineState.
From Verif Require Import SpecTransform SpecState SpecNatural SpecNaturalState StateProofs StateProofs2.
From Verif Require Import NaturalProofs.
Local Open Scope nat_scope.

Section Natural.
Context {W V : Type} (k : likeness) (Hco : Coherent k) (R : W -> V -> Prop).

Notation E := (LikeEvent k).
Notation Es := (Forall2 (LikeEvent k)).
Notation Err := (LikeError k).

Definition alike_sel (m m' : selector) : Prop :=
  forall e e', E e e' -> matches m e = matches m' e'.
Definition alike_many (b : builder W) (c : builder V) : Prop := forall i, WLikeOnce k R (b i) (c i).
Definition alike_fun (f : W -> list event -> W * (list event + stream_error))
    (g : V -> list event -> V * (list event + stream_error)) : Prop :=
  (forall w v evs evs', R w v -> Es evs evs' -> R (fst (f w evs)) (fst (g v evs'))) /\
  (forall w v evs evs', R w v -> Es evs evs' -> LikeResult k (snd (f w evs)) (snd (g v evs'))).
Definition alike_once : once W -> once V -> Prop := WLikeOnce k R.
Definition alike_iter : iterator W -> iterator V -> Prop := WLikeIter k R.
Definition alike_live (f : live W) (g : live V) : Prop :=
  (forall i w v, R w v -> R (fst (f i w)) (fst (g i v))) /\
  (forall i w v, R w v -> LikeAnswer k (snd (f i w)) (snd (g i v))).
Inductive alike_items : items W -> items V -> Prop :=
| MI_items b c it jt : WLikeItem k R b c -> alike_iter it jt -> alike_items (Items b it) (Items c jt).
Definition alike_cmd (c c' : attr_cmd) : Prop :=
  forall a a', A k a a' -> A k (apply_attr c a) (apply_attr c' a').

Inductive nat_cc : option (ident * loc * nat) -> option (ident * loc * nat) -> Prop :=
| NCC_none : nat_cc None None
| NCC_some t t' l level : T k t t' -> nat_cc (Some (t, l, level)) (Some (t', l, level)).

Inductive sim : wstrm W -> wstrm V -> Prop :=
| M_template evs evs' i : Es evs evs' -> sim (WSTemplate evs i) (WSTemplate evs' i)
| M_user evs evs' stop stop' : Es evs evs' -> LikeOption Err stop stop' ->
    sim (WSUser evs stop) (WSUser evs' stop')
| M_live_none : sim (WSLive None) (WSLive None)
| M_live f g : alike_live f g -> sim (WSLive (Some f)) (WSLive (Some g))
| M_content_none : sim (WSContent None) (WSContent None)
| M_content d d' : E (Data d) (Data d') -> sim (WSContent (Some d)) (WSContent (Some d'))
| M_shared l : sim (WSShared l) (WSShared l)
| M_fallible_none : sim (WSFallible None) (WSFallible None)
| M_fallible_ok s s' : sim s s' ->
    sim (WSFallible (Some (WFStart (inl s)))) (WSFallible (Some (WFStart (inl s'))))
| M_fallible_err e e' : Err e e' ->
    sim (WSFallible (Some (WFStart (inr e)))) (WSFallible (Some (WFStart (inr e'))))
| M_fallible_emit s s' : sim s s' ->
    sim (WSFallible (Some (WFEmit s))) (WSFallible (Some (WFEmit s')))
| M_expand_none : sim (WSExpand None) (WSExpand None)
| M_expand_start s s' : sim s s' ->
    sim (WSExpand (Some (WXStart s))) (WSExpand (Some (WXStart s')))
| M_expand_stream s s' : sim s s' ->
    sim (WSExpand (Some (WXEmitStream s))) (WSExpand (Some (WXEmitStream s')))
| M_expand_close t t' : T k t t' ->
    sim (WSExpand (Some (WXEmitClosingTag t))) (WSExpand (Some (WXEmitClosingTag t')))
| M_peek s s' b b' : sim s s' -> LikeOption E b b' -> sim (WSPeek s b) (WSPeek s' b')
| M_combine_none : sim (WSCombine None) (WSCombine None)
| M_combine_first s s' t t' : sim s s' -> sim t t' ->
    sim (WSCombine (Some (WCmbFirst s t))) (WSCombine (Some (WCmbFirst s' t')))
| M_combine_second s s' : sim s s' ->
    sim (WSCombine (Some (WCmbSecond s))) (WSCombine (Some (WCmbSecond s')))
| M_remove s s' : sim s s' -> sim (WSRemove s) (WSRemove s')
| M_single_none : sim (WSSingle None) (WSSingle None)
| M_single_start ev ev' s s' : E ev ev' -> sim s s' ->
    sim (WSSingle (Some (WSEStart ev s))) (WSSingle (Some (WSEStart ev' s')))
| M_single_until t t' s s' level : T k t t' -> sim s s' ->
    sim (WSSingle (Some (WSEUntilClose t s level))) (WSSingle (Some (WSEUntilClose t' s' level)))
| M_select_none l m m' b b' calls direct : alike_sel m m' -> alike_many b b' ->
    sim (WSSelect l m b calls direct None) (WSSelect l m' b' calls direct None)
| M_select_scan l m m' b b' calls direct level : alike_sel m m' -> alike_many b b' ->
    sim (WSSelect l m b calls direct (Some (WSelScanning level)))
        (WSSelect l m' b' calls direct (Some (WSelScanning level)))
| M_select_active l m m' b b' calls direct level s s' :
    alike_sel m m' -> alike_many b b' -> sim s s' ->
    sim (WSSelect l m b calls direct (Some (WSelActive level s)))
        (WSSelect l m' b' calls direct (Some (WSelActive level s')))
| M_once_none l : sim (WSSelectOnce l None) (WSSelectOnce l None)
| M_once_scan l m m' p q direct level : alike_sel m m' -> alike_once p q ->
    sim (WSSelectOnce l (Some (WSelOScanning m p direct level)))
        (WSSelectOnce l (Some (WSelOScanning m' q direct level)))
| M_once_active l s s' : sim s s' ->
    sim (WSSelectOnce l (Some (WSelOActive s))) (WSSelectOnce l (Some (WSelOActive s')))
| M_once_pass l :
    sim (WSSelectOnce l (Some WSelOPassthrough)) (WSSelectOnce l (Some WSelOPassthrough))
| M_sc_none : sim (WSSelectContent None) (WSSelectContent None)
| M_sc_open s s' b b' : sim s s' -> sim_cb b b' ->
    sim (WSSelectContent (Some (WSCOpen s b))) (WSSelectContent (Some (WSCOpen s' b')))
| M_sc_content l s s' t t' : sim s s' -> T k t t' ->
    sim (WSSelectContent (Some (WSCContent l s t))) (WSSelectContent (Some (WSCContent l s' t')))
| M_sc_close l t t' : T k t t' ->
    sim (WSSelectContent (Some (WSCClose l t))) (WSSelectContent (Some (WSCClose l t')))
| M_cc st st' : nat_cc st st' -> sim (WSCurrentContent st) (WSCurrentContent st')
| M_either first s s' : sim s s' -> sim (WSApplyEither first s) (WSApplyEither first s')
| M_ta_none : sim (WSTemplateApply None) (WSTemplateApply None)
| M_ta_collect s s' f f' : sim s s' -> alike_fun f f' ->
    sim (WSTemplateApply (Some (WTACollect s f))) (WSTemplateApply (Some (WTACollect s' f')))
| M_ta_emit evs evs' i : Es evs evs' ->
    sim (WSTemplateApply (Some (WTAEmit evs i))) (WSTemplateApply (Some (WTAEmit evs' i)))
| M_repeat_none : sim (WSRepeat None) (WSRepeat None)
| M_repeat_collect s s' bs cs : sim s s' -> alike_items bs cs ->
    sim (WSRepeat (Some (WRCollect s bs))) (WSRepeat (Some (WRCollect s' cs)))
| M_repeat_next t t' bs cs : Es t t' -> alike_items bs cs ->
    sim (WSRepeat (Some (WRNext t bs))) (WSRepeat (Some (WRNext t' cs)))
| M_repeat_emit t t' s s' bs cs : Es t t' -> sim s s' -> alike_items bs cs ->
    sim (WSRepeat (Some (WREmit t s bs))) (WSRepeat (Some (WREmit t' s' cs)))
| M_roe_none : sim (WSRepeatOrElse None) (WSRepeatOrElse None)
| M_roe_start c s s' bs cs p q : sim s s' -> alike_iter bs cs -> alike_once p q ->
    sim (WSRepeatOrElse (Some (WROEStart c s bs p))) (WSRepeatOrElse (Some (WROEStart c s' cs q)))
| M_roe_fallback s s' : sim s s' ->
    sim (WSRepeatOrElse (Some (WROEFallback s))) (WSRepeatOrElse (Some (WROEFallback s')))
| M_roe_repeat s s' : sim s s' ->
    sim (WSRepeatOrElse (Some (WROERepeat s))) (WSRepeatOrElse (Some (WROERepeat s')))
| M_attr_none : sim (WSAttr None) (WSAttr None)
| M_attr_start s s' c c' : sim s s' -> alike_cmd c c' ->
    sim (WSAttr (Some (WAStart s c))) (WSAttr (Some (WAStart s' c')))
| M_attr_emit s s' : sim s s' ->
    sim (WSAttr (Some (WAEmit s))) (WSAttr (Some (WAEmit s')))
with sim_cb : @wcontent_builder W -> @wcontent_builder V -> Prop :=
| MC_user p q : alike_once p q -> sim_cb (WCBUser p) (WCBUser q)
| MC_remove : sim_cb WCBRemove WCBRemove
| MC_replace n n' : sim n n' -> sim_cb (WCBReplace n) (WCBReplace n')
| MC_append n n' : sim n n' -> sim_cb (WCBAppend n) (WCBAppend n')
| MC_prepend n n' : sim n n' -> sim_cb (WCBPrepend n) (WCBPrepend n')
| MC_select direct m m' b b' : alike_sel m m' -> alike_many b b' ->
    sim_cb (WCBSelect direct m b) (WCBSelect direct m' b')
| MC_select_once direct m m' p q : alike_sel m m' -> alike_once p q ->
    sim_cb (WCBSelectOnce direct m p) (WCBSelectOnce direct m' q)
| MC_repeat bs cs : alike_items bs cs -> sim_cb (WCBRepeat bs) (WCBRepeat cs).

(** ** Heaps and outcomes *)

Inductive sim_cell : option (wcell W) -> option (wcell V) -> Prop :=
| ML_none : sim_cell None None
| ML_borrowed : sim_cell (Some WBorrowed) (Some WBorrowed)
| ML_cell s s' : sim s s' -> sim_cell (Some (WCell s)) (Some (WCell s')).
Definition sim_heap (h : wheap W) (h' : wheap V) : Prop :=
  (forall l, sim_cell (fst h !! l) (fst h' !! l)) /\ R (snd h) (snd h').
Lemma simh_insert h h' l c c' w v : sim_heap h h' -> sim_cell (Some c) (Some c') -> R w v ->
  sim_heap (<[l := c]> (fst h), w) (<[l := c']> (fst h'), v).
Proof.
  intros [Hh _] Hc Hw. split; [|done]. intros j. cbn. destruct (decide (l = j)) as [->|Hn].
  - by rewrite !lookup_insert.
  - rewrite !lookup_insert_ne by done. apply Hh.
Qed.
Lemma simh_world h h' w v : sim_heap h h' -> R w v -> sim_heap (fst h, w) (fst h', v).
Proof. by intros [? _]. Qed.
Lemma simh_fresh h h' : sim_heap h h' -> wfresh_loc (fst h) = wfresh_loc (fst h').
Proof.
  intros [Hh _]. apply fold_locs_eq. intros l. specialize (Hh l).
  inversion Hh; split; intros [? ?]; eauto; congruence.
Qed.

Inductive sim_out {B C} (Q : B -> C -> Prop) : wout W B -> wout V C -> Prop :=
| MO_fuel : sim_out Q WOutOfFuel WOutOfFuel
| MO_panic : sim_out Q WPanicked WPanicked
| MO_done h h' a a' : sim_heap h h' -> Q a a' -> sim_out Q (WDone h a) (WDone h' a').
Notation LR := (LikeAnswer k).
Definition sim_res (x : wstrm W * stream_result) (y : wstrm V * stream_result) : Prop := sim x.1 y.1 /\ LR x.2 y.2.

Lemma sim_bind {B C B' C'} (Q : B -> C -> Prop) (S : B' -> C' -> Prop) o o' f f' :
  sim_out Q o o' ->
  (forall h h' a a', sim_heap h h' -> Q a a' -> sim_out S (f h a) (f' h' a')) ->
  sim_out S (wbind o f) (wbind o' f').
Proof. intros [] Hk; cbn; [constructor|constructor|]. by apply Hk. Qed.
Lemma sim_on_ok o o' dead dead' f f' :
  sim_out sim_res o o' -> (forall s s', sim s s' -> sim (dead s) (dead' s')) ->
  (forall h h' s s' r r', sim_heap h h' -> sim s s' -> LikeOption E r r' ->
     sim_out sim_res (f h s r) (f' h' s' r')) ->
  sim_out sim_res (won_ok o dead f) (won_ok o' dead' f').
Proof.
  intros Ho Hd Hk. unfold won_ok. eapply sim_bind; [done|].
  intros h h' [s r] [s' r'] Hh [Hs Hr]. cbn in Hs, Hr. destruct Hr as [r r' Hr|e e' He].
  - by apply Hk.
  - constructor; [done|]. split; cbn; [auto|by constructor].
Qed.
Lemma sim_emit h h' s s' ev ev' : sim_heap h h' -> sim s s' -> E ev ev' ->
  sim_out sim_res (wemit h s ev) (wemit h' s' ev').
Proof. intros. constructor; [done|]. split; [done|]. by apply LA_answer, LO_some. Qed.
Lemma sim_finish h h' s s' : sim_heap h h' -> sim s s' ->
  sim_out sim_res (wfinish h s) (wfinish h' s').
Proof. intros. constructor; [done|]. split; [done|]. apply LA_answer, LO_none. Qed.
Lemma sim_fail h h' s s' e e' : sim_heap h h' -> sim s s' -> Err e e' ->
  sim_out sim_res (wfail h s e) (wfail h' s' e').
Proof. intros. constructor; [done|]. split; [done|]. by apply LA_failure. Qed.
Lemma sim_pass o o' dead dead' cont cont' :
  sim_out sim_res o o' -> sim dead dead' -> (forall s s', sim s s' -> sim (cont s) (cont' s')) ->
  sim_out sim_res (wpassthrough o dead cont) (wpassthrough o' dead' cont').
Proof.
  intros Ho Hd Hc. unfold wpassthrough. eapply sim_on_ok; [done|auto|].
  intros h h' s s' r r' Hh Hs [|ev ev' He]; [apply sim_finish|apply sim_emit]; auto.
Qed.
Lemma sim_with_cell h h' l f f' :
  sim_heap h h' ->
  (forall h h' s s', sim_heap h h' -> sim s s' -> sim_out sim_res (f h s) (f' h' s')) ->
  sim_out sim_res (wwith_cell h l f) (wwith_cell h' l f').
Proof.
  intros Hh Hf. unfold wwith_cell.
  pose proof (proj1 Hh l) as Hl. inversion Hl as [| |s s' Hs E1 E2].
  - constructor.
  - constructor.
  - eapply sim_bind.
    + apply Hf; [|done]. apply simh_insert; [done|constructor|apply Hh].
    + intros j j' [t r] [t' r'] Hj [Ht Hr]. cbn in Ht, Hr. constructor.
      * apply simh_insert; [done|by constructor|apply Hj].
      * split; [constructor|done].
Qed.

(** ** Building *)

Lemma sim_into_stream c c' : LikeContent k c c' -> sim (winto_stream c) (winto_stream c').
Proof.
  induction 1 as [evs evs' He|c c' d d' Hd Hd' HX|evs evs' stop stop' He Hs|c c' Hc IH|e e' He].
  - by constructor.
  - assert (sim (WSContent (Some d)) (WSContent (Some d'))).
    { constructor. by apply LE_text. }
    destruct Hd, Hd'; done.
  - by constructor.
  - by constructor.
  - by constructor.
Qed.
Lemma sim_content_stream c c' : WLikeContent k R c c' -> sim (wcontent_stream c) (wcontent_stream c').
Proof.
  induction 1 as [c c' H|f g H1 H2|c c' _ IH]; cbn; [by apply sim_into_stream|by constructor|by constructor].
Qed.
Lemma sim_select_new h h' s s' m m' b b' direct :
  sim_heap h h' -> sim s s' -> alike_sel m m' -> alike_many b b' ->
  exists j j' t t', wselect_new h s m b direct = (j, t) /\
    wselect_new h' s' m' b' direct = (j', t') /\ sim_heap j j' /\ sim t t'.
Proof.
  intros Hh Hs Hm Hb. unfold wselect_new. cbn [fst snd]. rewrite <- (simh_fresh h h' Hh).
  do 4 eexists. split_and!; [done..| |by constructor].
  apply simh_insert; [done|by constructor|apply Hh].
Qed.
Lemma sim_select_once_new h h' s s' m m' p q direct :
  sim_heap h h' -> sim s s' -> alike_sel m m' -> alike_once p q ->
  exists j j' t t', wselect_once_new h s m p direct = (j, t) /\
    wselect_once_new h' s' m' q direct = (j', t') /\ sim_heap j j' /\ sim t t'.
Proof.
  intros Hh Hs Hm Hb. unfold wselect_once_new. cbn [fst snd]. rewrite <- (simh_fresh h h' Hh).
  do 4 eexists. split_and!; [done..| |by constructor].
  apply simh_insert; [done|by constructor|apply Hh].
Qed.
Lemma changes_build {U} o f : Changes o f -> exists c, (forall a, f a = apply_attr c a) /\
  forall (h : wheap U) s, wbuild_op (stateless_op o) h s =
    WDone h (if match o with ORemoveId => true | _ => false end
            then WSAttr (Some (WAStart s c)) else wfallible_new (inl (WSAttr (Some (WAStart s c))))).
Proof.
  destruct 1 as [n v|n v sep|n v|n v|n|c n Hn|c|n Hn|i n Hn]; cbn [stateless_op wbuild_op]; unfold wattr_new.
  - by exists (AAddAttribute n v).
  - by exists (AAddToAttribute n v sep).
  - by exists (AReplaceAttribute n (Some v)).
  - by exists (ASetAttribute n v).
  - by exists (ARemoveAttribute n).
  - rewrite Hn. by exists (AAddToAttribute n (ident_into_value c) (enc_from_unencoded_static_str (lit " "))).
  - by exists (ARemoveClass c).
  - rewrite Hn. by exists (ARemoveAttribute n).
  - rewrite Hn. by exists (ASetAttribute n (Some (ident_into_value i))).
Qed.
Lemma bad_build {U} o err : BadName o err ->
  forall (h : wheap U) s, wbuild_op (stateless_op o) h s = WDone h (wfallible_new (inr (SEIdentifier err))).
Proof. by destruct 1. Qed.

Lemma sim_build_op : forall o o', WLikeOp k R o o' -> forall h h' s s', sim_heap h h' -> sim s s' ->
  sim_out sim (wbuild_op o h s) (wbuild_op o' h' s').
Proof.
  fix IH 3. intros o o' Ho h h' s s' Hh Hs.
  assert (forall p q (Hp : WLike k R p q) h h' s s', sim_heap h h' -> sim s s' ->
    sim_out sim (wbuild_fix p h s) (wbuild_fix q h' s')) as IHp.
  { fix IHp 3. intros p q [|a a' p' q' Ha Hp] j j' t t' Hj Ht; cbn.
    - by constructor.
    - eapply sim_bind; [exact (IH a a' Ha j j' t t' Hj Ht)|].
      intros i i' u u' Hi Hu. exact (IHp p' q' Hp i i' u u' Hi Hu). }
  pose proof sim_content_stream as Hc.
  destruct Ho.
  all: try (cbn [wbuild_op]; fold (@wbuild_fix W); fold (@wbuild_fix V);
        repeat first [assumption | apply IHp; assumption
        | constructor; [assumption|] | apply Hc; assumption | progress constructor]; fail).
  - cbn [wbuild_op]; fold (@wbuild_fix W); fold (@wbuild_fix V).
    eapply sim_bind; [apply IHp; eassumption|]. intros. constructor; [done|]. by constructor.
  - cbn [wbuild_op]. destruct H as [m m' Hm|e e' He]; [|constructor; [done|by constructor]].
    destruct (sim_select_new h h' s s' m m' b c direct Hh Hs Hm) as (j & j' & t & t' & E1 & E2 & ? & ?); [done|].
    rewrite E1, E2. constructor; [done|]. by constructor.
  - cbn [wbuild_op]. destruct H as [m m' Hm|e e' He]; [|constructor; [done|by constructor]].
    destruct (sim_select_once_new h h' s s' m m' b c direct Hh Hs Hm) as (j & j' & t & t' & E1 & E2 & ? & ?); [done|].
    rewrite E1, E2. constructor; [done|]. by constructor.
  - cbn [wbuild_op]. destruct H as [m m' Hm|e e' He]; (constructor; [done|]); [|by constructor].
    apply M_fallible_ok, M_sc_open; [done|]. by constructor.
  - cbn [wbuild_op]. destruct H as [m m' Hm|e e' He]; (constructor; [done|]); [|by constructor].
    apply M_fallible_ok, M_sc_open; [done|]. by constructor.
  - destruct (changes_build (U:=W) _ _ H) as (c & Ec & Eb). destruct (changes_build (U:=V) _ _ H0) as (c' & Ec' & Eb').
    rewrite Eb, Eb'. clear IH IHp Eb Eb'. constructor; [done|].
    assert (alike_cmd c c') by (intros a a' Ha; rewrite <- Ec, <- Ec'; auto).
    assert (sim (WSAttr (Some (WAStart s c))) (WSAttr (Some (WAStart s' c')))) by by constructor.
    assert ((match o with ORemoveId => true | _ => false end) = (match o' with ORemoveId => true | _ => false end)) as ->.
    { match goal with Hi : o = ORemoveId <-> _ |- _ => destruct Hi as [Hi1 Hi2] end.
      destruct o, o'; try done; try (by specialize (Hi1 eq_refl)); by specialize (Hi2 eq_refl). }
    destruct (match o' with ORemoveId => true | _ => false end); [done|]. by constructor.
  - rewrite (bad_build (U:=W) _ _ H), (bad_build (U:=V) _ _ H0). constructor; [done|]. constructor. by apply LR_same.
Qed.
Lemma sim_build p q : WLike k R p q -> forall h h' s s', sim_heap h h' -> sim s s' ->
  sim_out sim (wbuild p h s) (wbuild q h' s').
Proof.
  induction 1 as [|o o' p q Ho Hp IHp]; intros h h' s s' Hh Hs; cbn.
  - by constructor.
  - eapply sim_bind; [apply sim_build_op; done|]. auto.
Qed.
Lemma sim_run_builder b c h h' s s' : alike_once b c -> sim_heap h h' -> sim s s' ->
  sim_out sim (run_builder b h s) (run_builder c h' s').
Proof.
  intros [b' c' Hw Hp] Hh Hs. unfold run_builder. pose proof (proj2 Hh) as HR.
  specialize (Hw _ _ HR). specialize (Hp _ _ HR). destruct (b' _), (c' _).
  apply sim_build; [done| |done]. by apply simh_world.
Qed.
Lemma sim_build_content b b' h h' s s' : sim_cb b b' -> sim_heap h h' -> sim s s' ->
  sim_out sim (wbuild_content b h s) (wbuild_content b' h' s').
Proof.
  intros Hb Hh Hs. destruct Hb; cbn [wbuild_content].
  - by apply sim_run_builder.
  - constructor; [done|]. by constructor.
  - constructor; [done|]. by repeat constructor.
  - constructor; [done|]. by repeat constructor.
  - constructor; [done|]. by repeat constructor.
  - destruct (sim_select_new h h' s s' m m' b b' direct) as (j & j' & t & t' & E1 & E2 & ? & ?); [done..|].
    rewrite E1, E2. by constructor.
  - destruct (sim_select_once_new h h' s s' m m' p q direct) as (j & j' & t & t' & E1 & E2 & ? & ?); [done..|].
    rewrite E1, E2. by constructor.
  - constructor; [done|]. by constructor.
Qed.

(** ** Running *)

Record SimE (e : wengine W) (e' : wengine V) : Prop :=
  { m_ne : forall h h' s s', sim_heap h h' -> sim s s' -> sim_out sim_res (wne e h s) (wne e' h' s');
    m_sk : forall h h' s s', sim_heap h h' -> sim s s' -> sim_out sim_res (wsk e h s) (wsk e' h' s');
    m_dr : forall h h' s s', sim_heap h h' -> sim s s' -> sim_out sim_res (wdr e h s) (wdr e' h' s');
    m_co : forall h h' s s' acc acc', sim_heap h h' -> sim s s' -> Es acc acc' ->
             sim_out (LikeResult k) (wco e h s acc) (wco e' h' s' acc') }.

Lemma sim_peek e e' h h' s s' : SimE e e' -> sim_heap h h' -> sim s s' ->
  sim_out sim_res (wpeek e h s) (wpeek e' h' s').
Proof.
  intros He Hh Hs. inversion Hs; subst; cbn [wpeek]; try constructor.
  match goal with Hx : LikeOption E _ _ |- _ => rename Hx into Hb end.
  destruct Hb as [|ev ev' Hev].
  - eapply sim_on_ok; [apply (m_sk _ _ He); eassumption| |].
    + intros. by repeat constructor.
    + intros. constructor; [done|]. split; cbn; by constructor.
  - constructor; [done|]. split; cbn; [|apply LA_answer]; constructor; [done|by constructor|done].
Qed.

Ltac ms := first [assumption | constructor; assumption | constructor; ms].
Ltac mstep := first
  [ apply sim_emit; [assumption|ms|ms]
  | apply sim_finish; [assumption|ms]
  | apply sim_fail; [assumption|ms|ms] ].

Lemma alike_iter_next it jt : alike_iter it jt -> alike_iter (fun n => it (S n)) (fun n => jt (S n)).
Proof. intros [it' jt' Hw Hi]. constructor; intros; [by apply Hw|by apply Hi]. Qed.

Lemma sim_ne_body e e' h h' s s' : SimE e e' -> sim_heap h h' -> sim s s' ->
  sim_out sim_res (wne_body e h s) (wne_body e' h' s').
Proof.
  intros He Hh Hs.
  assert (forall l, sim_out sim_res (wne e h (WSShared l)) (wne e' h' (WSShared l))) as Hne
    by (intros; apply (m_ne _ _ He); [done|constructor]).
  assert (forall l, sim_out sim_res (wsk e h (WSShared l)) (wsk e' h' (WSShared l))) as Hsk
    by (intros; apply (m_sk _ _ He); [done|constructor]).
  inversion Hs; subst; cbn [wne_body].
  all: try (by mstep).
  all: try (by (apply sim_pass; [first [apply (m_ne _ _ He); ms | apply (m_sk _ _ He); ms | apply Hne]|ms
                                |intros; ms])).
  - (* WSTemplate *)
    match goal with Hev : Es evs evs' |- _ => destruct (like_nth k evs evs' i Hev) end; mstep.
  - (* WSUser *)
    match goal with Hev : Es evs evs' |- _ => destruct Hev end.
    + match goal with Hst : LikeOption Err stop stop' |- _ => destruct Hst end; [mstep|].
      apply sim_fail; [done| |done]. constructor; constructor.
    + mstep.
  - (* WSLive *)
    pose proof (proj2 Hh) as HR. match goal with H : alike_live _ _ |- _ => destruct H as [Hw Hr] end.
    pose proof (Hw 0 _ _ HR) as Hw0. pose proof (Hr 0 _ _ HR) as Hr0.
    destruct (f 0 (snd h)), (g 0 (snd h')); cbn in Hw0, Hr0.
    pose proof (simh_world h h' _ _ Hh Hw0) as Hh'.
    destruct Hr0 as [r r' [|x x' Hx]|err err' Herr]; [mstep| |mstep].
    apply sim_emit; [done| |done]. constructor. split; intros i; [apply (Hw (S i))|apply (Hr (S i))].
  - (* WSShared *) apply sim_with_cell; [done|]. intros. by apply (m_ne _ _ He).
  - (* WXStart *) eapply sim_on_ok; [apply (m_sk _ _ He); eassumption|intros; ms|].
    intros j j' t t' r r' Hj Ht Hr. destruct Hr as [|x x' Hx]; [mstep|].
    pose proof Hx as Hx0.
    destruct Hx as [|y y' Hy Hy' HX|u u' a a' Hu Ha|u u' a a' Hu Ha|u u' a a' Hu Ha|u u' Hu]; try mstep.
    destruct y, y'; try done; mstep.
  - (* WSPeek *)
    match goal with Hb : LikeOption E b b' |- _ => destruct Hb end; [|mstep].
    eapply sim_on_ok; [apply (m_sk _ _ He); eassumption|intros; ms|].
    intros. constructor; [done|]. split; cbn; [ms|by apply LA_answer].
  - (* WCmbFirst *) eapply sim_on_ok; [apply (m_sk _ _ He); eassumption|intros; ms|].
    intros j j' u u' r r' Hj Hu Hr. destruct Hr as [|x x' Hx]; mstep.
  - (* WSRemove *) by apply (m_dr _ _ He).
  - (* WSEStart *)
    match goal with Hx : E ev ev' |- _ => pose proof Hx as Hx0;
      destruct Hx as [|y y' Hy Hy' HX|u u' a a' Hu Ha|u u' a a' Hu Ha|u u' a a' Hu Ha|u u' Hu] end; try mstep.
    destruct y, y'; try done; mstep.
  - (* WSEUntilClose *) eapply sim_on_ok; [apply (m_ne _ _ He); eassumption|intros; ms|].
    intros j j' u u' r r' Hj Hu Hr. destruct Hr as [|x x' Hx]; [mstep|].
    rewrite <- (alike_opening k Hco x x' t t'), <- (alike_closing k Hco x x' t t') by done.
    destruct (is_opening_tag_for x t); [mstep|]. destruct (is_closing_tag_for x t); [|mstep].
    destruct level; mstep.
  - (* WSelScanning *) eapply sim_on_ok; [apply Hsk|intros; ms|].
    intros j j' u u' r r' Hj _ Hr. destruct Hr as [|x x' Hx]; [mstep|].
    match goal with Hm : alike_sel m m' |- _ => rewrite <- (Hm x x' Hx) end.
    destruct (include direct level && matches m x).
    + eapply sim_bind; [apply sim_run_builder; [match goal with Hb : alike_many b b' |- _ => apply Hb end|done|ms]|].
      intros. mstep.
    + destruct (alike_adjust k x x' level Hx); mstep.
  - (* WSelActive *) eapply sim_on_ok; [apply (m_ne _ _ He); eassumption|intros; ms|].
    intros j j' u u' r r' Hj Hu Hr. destruct Hr as [|x x' Hx]; mstep.
  - (* WSelOScanning *) eapply sim_on_ok; [apply Hsk|intros; ms|].
    intros j j' u u' r r' Hj _ Hr. destruct Hr as [|x x' Hx]; [mstep|].
    match goal with Hm : alike_sel m m' |- _ => rewrite <- (Hm x x' Hx) end.
    destruct (include direct level && matches m x).
    + eapply sim_bind; [apply sim_run_builder; [eassumption|done|ms]|]. intros. mstep.
    + destruct (alike_adjust k x x' level Hx); mstep.
  - (* WSelOActive *) eapply sim_on_ok; [apply (m_ne _ _ He); eassumption|intros; ms|].
    intros j j' u u' r r' Hj Hu Hr. destruct Hr as [|x x' Hx]; mstep.
  - (* WSCOpen *) eapply sim_on_ok; [apply (m_sk _ _ He); [done|ms]|intros; ms|].
    intros j j' u u' r r' Hj Hu Hr. destruct Hr as [|x x' Hx]; [mstep|].
    pose proof Hx as Hx0.
    destruct Hx as [|y y' Hy Hy' HX|v v' a a' Hv Ha|v v' a a' Hv Ha|v v' a a' Hv Ha|v v' Hv]; try mstep.
    + destruct y, y'; try done; mstep.
    + cbv zeta. rewrite <- (simh_fresh j j' Hj). eapply sim_bind.
      * apply sim_build_content; [eassumption| |].
        -- apply simh_insert; [done| |apply Hj]. constructor. constructor; [done|constructor].
        -- constructor. by constructor.
      * intros. mstep.
  - (* WSCContent *) eapply sim_on_ok; [apply (m_ne _ _ He); eassumption|intros; ms|].
    intros j j' u u' r r' Hj Hu Hr. destruct Hr as [|x x' Hx]; mstep.
  - (* WSCClose *) eapply sim_on_ok; [apply Hsk|intros; ms|].
    intros j j' u u' r r' Hj Hu Hr. destruct Hr as [|x x' Hx]; [mstep|].
    pose proof Hx as Hx0.
    destruct Hx as [|y y' Hy Hy' HX|v v' a a' Hv Ha|v v' a a' Hv Ha|v v' a a' Hv Ha|v v' Hv]; try mstep.
    + destruct y, y'; try done; mstep.
    + match goal with Ht : T k t t' |- _ => rewrite <- (Hco v v' t t' Hv Ht) end.
      destruct (ident_eqb v t); mstep.
  - (* WSCurrentContent *)
    match goal with Hc : nat_cc st st' |- _ => destruct Hc as [|t t' l level Ht] end; [mstep|].
    assert (forall j j', sim_heap j j' ->
      sim_out sim_res
        (won_ok (wne e j (WSShared l)) (fun _ => WSCurrentContent None) (fun h _ r =>
          match r with
          | None => wfail h (WSCurrentContent None) (missing_close t)
          | Some ev =>
              match adjust level ev with
              | inl level => wemit h (WSCurrentContent (Some (t, l, level))) ev
              | inr _ => wfail h (WSCurrentContent None) (missing_close t)
              end
          end))
        (won_ok (wne e' j' (WSShared l)) (fun _ => WSCurrentContent None) (fun h _ r =>
          match r with
          | None => wfail h (WSCurrentContent None) (missing_close t')
          | Some ev =>
              match adjust level ev with
              | inl level => wemit h (WSCurrentContent (Some (t', l, level))) ev
              | inr _ => wfail h (WSCurrentContent None) (missing_close t')
              end
          end))) as Hnext.
    { intros j j' Hj. eapply sim_on_ok; [apply (m_ne _ _ He); [done|ms]|intros; ms|].
      intros i i' u u' r r' Hi Hu Hr. destruct Hr as [|x x' Hx]; [mstep|].
      destruct (alike_adjust k x x' level Hx); mstep. }
    cbv zeta. destruct (negb (Nat.eqb level 0)); [by apply Hnext|].
    eapply sim_on_ok; [apply sim_with_cell; [done|intros; by apply sim_peek]|intros; ms|].
    intros j j' u u' r r' Hj Hu Hr. destruct Hr as [|x x' Hx]; [mstep|].
    rewrite <- (alike_closing k Hco x x' t t') by done.
    destruct (is_closing_tag_for x t); [mstep|by apply Hnext].
  - (* WSApplyEither *) eapply sim_bind; [apply (m_ne _ _ He); eassumption|].
    intros j j' [u r] [u' r'] Hj [Hu Hr]. cbn in Hu, Hr. constructor; [done|].
    split; [ms|done].
  - (* WTACollect *) eapply sim_bind; [apply (m_co _ _ He); [eassumption..|constructor]|].
    intros j j' r r' Hj [t t' Ht|err err' Herr]; [|mstep].
    match goal with H : alike_fun _ _ |- _ => destruct H as [Hw Hf] end.
    pose proof (proj2 Hj) as HR. specialize (Hw _ _ t t' HR Ht). specialize (Hf _ _ t t' HR Ht).
    destruct (f (snd j) t), (f' (snd j') t'). cbn in Hw, Hf.
    pose proof (simh_world j j' _ _ Hj Hw). destruct Hf; mstep.
  - (* WTAEmit *) apply sim_pass; [apply (m_ne _ _ He); ms|ms|]. intros u u' Hu.
    destruct Hu; ms.
  - (* WRCollect *) eapply sim_bind; [apply (m_co _ _ He); [eassumption..|constructor]|].
    intros j j' r r' Hj [t t' Ht|err err' Herr]; mstep.
  - (* WRNext *)
    match goal with H : alike_items _ _ |- _ => destruct H as [b c it jt Hb Hi] end.
    destruct Hb as [|b c Hb]; cbn [next_item].
    + destruct Hi as [it jt Hw Hi].
      pose proof (proj2 Hh) as HR. pose proof (Hw 0 _ _ HR) as Hw0. pose proof (Hi 0 _ _ HR) as Hi0.
      destruct (it 0 (snd h)), (jt 0 (snd h')). cbn in Hw0, Hi0.
      pose proof (simh_world h h' _ _ Hh Hw0) as Hh'.
      assert (alike_items (Items None (fun n => it (S n))) (Items None (fun n => jt (S n)))).
      { constructor; [constructor|]. apply alike_iter_next. by constructor. }
      destruct Hi0 as [|b c Hb]; [mstep|].
      eapply sim_bind; [apply sim_run_builder; [exact Hb|done|ms]|]. intros. mstep.
    + assert (alike_items (Items None it) (Items None jt)) by (constructor; [constructor|done]).
      destruct h as [h w], h' as [h' w'].
      eapply sim_bind; [apply sim_run_builder; [exact Hb|done|ms]|]. intros. mstep.
  - (* WREmit *) eapply sim_on_ok; [apply (m_ne _ _ He); eassumption|intros; ms|].
    intros j j' u u' r r' Hj Hu Hr. destruct Hr as [|x x' Hx]; mstep.
  - (* WROEStart *)
    match goal with H : alike_iter _ _ |- _ => destruct H as [it jt Hw Hi] end.
    pose proof (proj2 Hh) as HR. pose proof (Hw 0 _ _ HR) as Hw0. pose proof (Hi 0 _ _ HR) as Hi0.
    destruct (it 0 (snd h)), (jt 0 (snd h')). cbn in Hw0, Hi0.
    pose proof (simh_world h h' _ _ Hh Hw0) as Hh'.
    destruct Hi0 as [|b0 c0 Hb].
    + eapply sim_bind; [apply sim_run_builder; eassumption|]. intros. mstep.
    + assert (alike_items (Items (Some b0) (fun n => it (S n))) (Items (Some c0) (fun n => jt (S n)))).
      { constructor; [by constructor|]. apply alike_iter_next. by constructor. }
      apply sim_emit; [done| |constructor]. constructor. destruct c; ms.
  - (* WAStart *) eapply sim_on_ok; [apply (m_sk _ _ He); eassumption|intros; ms|].
    intros j j' u u' r r' Hj Hu Hr. destruct Hr as [|x x' Hx]; [mstep|].
    pose proof Hx as Hx0.
    destruct Hx as [|y y' Hy Hy' HX|v v' a a' Hv Ha|v v' a a' Hv Ha|v v' a a' Hv Ha|v v' Hv]; try mstep.
    + destruct y, y'; try done; mstep.
    + apply sim_emit; [done|ms|]. constructor; [done|]. match goal with Hc : alike_cmd c c' |- _ => by apply Hc end.
    + apply sim_emit; [done|ms|]. constructor; [done|]. match goal with Hc : alike_cmd c c' |- _ => by apply Hc end.
    + apply sim_emit; [done|ms|]. constructor; [done|]. match goal with Hc : alike_cmd c c' |- _ => by apply Hc end.
Qed.

Lemma run_sim n : SimE (wrun n) (wrun n).
Proof.
  induction n as [|n IH]; split; intros; cbn [wrun wne wsk wdr wco].
  1-4: constructor.
  - by apply sim_ne_body.
  - unfold wsk_body. eapply sim_bind; [apply (m_ne _ _ IH); eassumption|].
    intros j j' [u r] [u' r'] Hj [Hu Hr]. cbn in Hu, Hr. pose proof Hr as Hr0.
    destruct Hr as [r r' [|x x' Hx]|err err' Herr]; try (constructor; [done|by split]).
    destruct Hx; try (constructor; [done|by split]).
    + by apply (m_sk _ _ IH).
    + destruct e, e'; try done; (constructor; [done|by split]).
  - unfold wdr_body. eapply sim_bind; [apply (m_ne _ _ IH); eassumption|].
    intros j j' [u r] [u' r'] Hj [Hu Hr]. cbn in Hu, Hr. pose proof Hr as Hr0.
    destruct Hr as [r r' [|x x' Hx]|err err' Herr]; try (constructor; [done|split; [ms|done]]).
    by apply (m_dr _ _ IH).
  - unfold wco_body. eapply sim_bind; [apply (m_sk _ _ IH); eassumption|].
    intros j j' [u r] [u' r'] Hj [Hu Hr]. cbn in Hu, Hr.
    destruct Hr as [r r' [|x x' Hx]|err err' Herr]; try (constructor; [done|by constructor]).
    apply (m_co _ _ IH); [done..|]. apply Forall2_app; [done|]. by constructor.
Qed.

Lemma sim_transform n evs evs' b c w v : Es evs evs' -> R w v -> WLikeOnce k R b c ->
  sim_out (LikeResult k) (wtransform n evs b w) (wtransform n evs' c v).
Proof.
  intros Hev HR Hp. unfold wtransform. eapply sim_bind.
  - apply sim_run_builder; [exact Hp| |by constructor]. split; [|exact HR].
    intros l. cbn. rewrite !lookup_empty. constructor.
  - intros. apply (m_co _ _ (run_sim n)); [done..|constructor].
Qed.
Lemma like_gives evs evs' b c w v : Es evs evs' -> R w v -> WLikeOnce k R b c ->
  (forall r w', GivesIn evs b w r w' ->
     exists r' v', GivesIn evs' c v r' v' /\ LikeResult k r r' /\ R w' v') /\
  (forall r' v', GivesIn evs' c v r' v' ->
     exists r w', GivesIn evs b w r w' /\ LikeResult k r r' /\ R w' v').
Proof.
  intros Hev HR Hp. split.
  - intros r w' (n & h & H). pose proof (sim_transform n evs evs' b c w v Hev HR Hp) as Hs.
    rewrite H in Hs. inversion Hs as [| |? [h' v'] ? r' [Hh HR'] Hr]; subst. exists r', v'.
    split; [by exists n, h'|done].
  - intros r' v' (n & h & H). pose proof (sim_transform n evs evs' b c w v Hev HR Hp) as Hs.
    rewrite H in Hs. inversion Hs as [| |[h' w'] ? r ? [Hh HR'] Hr]; subst. exists r, w'.
    split; [by exists n, h'|done].
Qed.
End Natural.
