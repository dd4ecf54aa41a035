(** Proofs for C73: programs that are alike run in step on templates that are alike. *)
From Coq Require Import String ZArith Lia.
From stdpp Require Import gmap.
From Verif Require Import Text Event Input Parse Selector Machine.
From Verif Require Import SpecTransform SpecNatural StateProofs.
Local Open Scope nat_scope.

Section Natural.
Context (k : likeness) (Hco : Coherent k).

Notation E := (LikeEvent k).
Notation Es := (Forall2 (LikeEvent k)).
Notation Err := (LikeError k).

Definition alike_sel (m m' : selector) : Prop :=
  forall e e', E e e' -> matches m e = matches m' e'.
Definition alike_many (b c : nat -> pipeline) : Prop := forall i, Like k (b i) (c i).
Definition alike_fun (f g : list event -> list event + stream_error) : Prop :=
  forall evs evs', Es evs evs' -> LikeResult k (f evs) (g evs').
Definition alike_cmd (c c' : attr_cmd) : Prop :=
  forall a a', A k a a' -> A k (apply_attr c a) (apply_attr c' a').

Inductive nat_cc : option (ident * loc * nat) -> option (ident * loc * nat) -> Prop :=
| NCC_none : nat_cc None None
| NCC_some t t' l level : T k t t' -> nat_cc (Some (t, l, level)) (Some (t', l, level)).

Inductive sim : strm -> strm -> Prop :=
| M_template evs evs' i : Es evs evs' -> sim (STemplate evs i) (STemplate evs' i)
| M_user evs evs' stop stop' : Es evs evs' -> LikeOption Err stop stop' ->
    sim (SUser evs stop) (SUser evs' stop')
| M_content_none : sim (SContent None) (SContent None)
| M_content d d' : E (Data d) (Data d') -> sim (SContent (Some d)) (SContent (Some d'))
| M_shared l : sim (SShared l) (SShared l)
| M_fallible_none : sim (SFallible None) (SFallible None)
| M_fallible_ok s s' : sim s s' ->
    sim (SFallible (Some (FStart (inl s)))) (SFallible (Some (FStart (inl s'))))
| M_fallible_err e e' : Err e e' ->
    sim (SFallible (Some (FStart (inr e)))) (SFallible (Some (FStart (inr e'))))
| M_fallible_emit s s' : sim s s' ->
    sim (SFallible (Some (FEmit s))) (SFallible (Some (FEmit s')))
| M_expand_none : sim (SExpand None) (SExpand None)
| M_expand_start s s' : sim s s' ->
    sim (SExpand (Some (XStart s))) (SExpand (Some (XStart s')))
| M_expand_stream s s' : sim s s' ->
    sim (SExpand (Some (XEmitStream s))) (SExpand (Some (XEmitStream s')))
| M_expand_close t t' : T k t t' ->
    sim (SExpand (Some (XEmitClosingTag t))) (SExpand (Some (XEmitClosingTag t')))
| M_peek s s' b b' : sim s s' -> LikeOption E b b' -> sim (SPeek s b) (SPeek s' b')
| M_combine_none : sim (SCombine None) (SCombine None)
| M_combine_first s s' t t' : sim s s' -> sim t t' ->
    sim (SCombine (Some (CmbFirst s t))) (SCombine (Some (CmbFirst s' t')))
| M_combine_second s s' : sim s s' ->
    sim (SCombine (Some (CmbSecond s))) (SCombine (Some (CmbSecond s')))
| M_remove s s' : sim s s' -> sim (SRemove s) (SRemove s')
| M_single_none : sim (SSingle None) (SSingle None)
| M_single_start ev ev' s s' : E ev ev' -> sim s s' ->
    sim (SSingle (Some (SEStart ev s))) (SSingle (Some (SEStart ev' s')))
| M_single_until t t' s s' level : T k t t' -> sim s s' ->
    sim (SSingle (Some (SEUntilClose t s level))) (SSingle (Some (SEUntilClose t' s' level)))
| M_select_none l m m' b b' calls direct : alike_sel m m' -> alike_many b b' ->
    sim (SSelect l m b calls direct None) (SSelect l m' b' calls direct None)
| M_select_scan l m m' b b' calls direct level : alike_sel m m' -> alike_many b b' ->
    sim (SSelect l m b calls direct (Some (SelScanning level)))
        (SSelect l m' b' calls direct (Some (SelScanning level)))
| M_select_active l m m' b b' calls direct level s s' :
    alike_sel m m' -> alike_many b b' -> sim s s' ->
    sim (SSelect l m b calls direct (Some (SelActive level s)))
        (SSelect l m' b' calls direct (Some (SelActive level s')))
| M_once_none l : sim (SSelectOnce l None) (SSelectOnce l None)
| M_once_scan l m m' p q direct level : alike_sel m m' -> Like k p q ->
    sim (SSelectOnce l (Some (SelOScanning m p direct level)))
        (SSelectOnce l (Some (SelOScanning m' q direct level)))
| M_once_active l s s' : sim s s' ->
    sim (SSelectOnce l (Some (SelOActive s))) (SSelectOnce l (Some (SelOActive s')))
| M_once_pass l :
    sim (SSelectOnce l (Some SelOPassthrough)) (SSelectOnce l (Some SelOPassthrough))
| M_sc_none : sim (SSelectContent None) (SSelectContent None)
| M_sc_open s s' b b' : sim s s' -> sim_cb b b' ->
    sim (SSelectContent (Some (SCOpen s b))) (SSelectContent (Some (SCOpen s' b')))
| M_sc_content l s s' t t' : sim s s' -> T k t t' ->
    sim (SSelectContent (Some (SCContent l s t))) (SSelectContent (Some (SCContent l s' t')))
| M_sc_close l t t' : T k t t' ->
    sim (SSelectContent (Some (SCClose l t))) (SSelectContent (Some (SCClose l t')))
| M_cc st st' : nat_cc st st' -> sim (SCurrentContent st) (SCurrentContent st')
| M_either first s s' : sim s s' -> sim (SApplyEither first s) (SApplyEither first s')
| M_ta_none : sim (STemplateApply None) (STemplateApply None)
| M_ta_collect s s' f f' : sim s s' -> alike_fun f f' ->
    sim (STemplateApply (Some (TACollect s f))) (STemplateApply (Some (TACollect s' f')))
| M_ta_emit evs evs' i : Es evs evs' ->
    sim (STemplateApply (Some (TAEmit evs i))) (STemplateApply (Some (TAEmit evs' i)))
| M_repeat_none : sim (SRepeat None) (SRepeat None)
| M_repeat_collect s s' bs cs : sim s s' -> LikeAll k bs cs ->
    sim (SRepeat (Some (RCollect s bs))) (SRepeat (Some (RCollect s' cs)))
| M_repeat_next t t' bs cs : Es t t' -> LikeAll k bs cs ->
    sim (SRepeat (Some (RNext t bs))) (SRepeat (Some (RNext t' cs)))
| M_repeat_emit t t' s s' bs cs : Es t t' -> sim s s' -> LikeAll k bs cs ->
    sim (SRepeat (Some (REmit t s bs))) (SRepeat (Some (REmit t' s' cs)))
| M_roe_none : sim (SRepeatOrElse None) (SRepeatOrElse None)
| M_roe_start c s s' bs cs p q : sim s s' -> LikeAll k bs cs -> Like k p q ->
    sim (SRepeatOrElse (Some (ROEStart c s bs p))) (SRepeatOrElse (Some (ROEStart c s' cs q)))
| M_roe_fallback s s' : sim s s' ->
    sim (SRepeatOrElse (Some (ROEFallback s))) (SRepeatOrElse (Some (ROEFallback s')))
| M_roe_repeat s s' : sim s s' ->
    sim (SRepeatOrElse (Some (ROERepeat s))) (SRepeatOrElse (Some (ROERepeat s')))
| M_attr_none : sim (SAttr None) (SAttr None)
| M_attr_start s s' c c' : sim s s' -> alike_cmd c c' ->
    sim (SAttr (Some (AStart s c))) (SAttr (Some (AStart s' c')))
| M_attr_emit s s' : sim s s' ->
    sim (SAttr (Some (AEmit s))) (SAttr (Some (AEmit s')))
with sim_cb : content_builder -> content_builder -> Prop :=
| MC_user p q : Like k p q -> sim_cb (CBUser p) (CBUser q)
| MC_remove : sim_cb CBRemove CBRemove
| MC_replace n n' : sim n n' -> sim_cb (CBReplace n) (CBReplace n')
| MC_append n n' : sim n n' -> sim_cb (CBAppend n) (CBAppend n')
| MC_prepend n n' : sim n n' -> sim_cb (CBPrepend n) (CBPrepend n')
| MC_select direct m m' b b' : alike_sel m m' -> alike_many b b' ->
    sim_cb (CBSelect direct m b) (CBSelect direct m' b')
| MC_select_once direct m m' p q : alike_sel m m' -> Like k p q ->
    sim_cb (CBSelectOnce direct m p) (CBSelectOnce direct m' q)
| MC_repeat bs cs : LikeAll k bs cs -> sim_cb (CBRepeat bs) (CBRepeat cs).

(** ** Heaps and outcomes *)

Inductive sim_cell : option cell -> option cell -> Prop :=
| ML_none : sim_cell None None
| ML_borrowed : sim_cell (Some Borrowed) (Some Borrowed)
| ML_cell s s' : sim s s' -> sim_cell (Some (Cell s)) (Some (Cell s')).
Definition sim_heap (h h' : heap) : Prop := forall l, sim_cell (h !! l) (h' !! l).
Lemma simh_insert h h' l c c' : sim_heap h h' -> sim_cell (Some c) (Some c') ->
  sim_heap (<[l := c]> h) (<[l := c']> h').
Proof.
  intros Hh Hc j. destruct (decide (l = j)) as [->|Hn].
  - by rewrite !lookup_insert.
  - rewrite !lookup_insert_ne by done. apply Hh.
Qed.
Lemma simh_fresh h h' : sim_heap h h' -> fresh_loc h = fresh_loc h'.
Proof.
  intros Hh. apply fold_locs_eq. intros l. specialize (Hh l).
  inversion Hh; split; intros [? ?]; eauto; congruence.
Qed.

Inductive sim_out {B C} (Q : B -> C -> Prop) : out B -> out C -> Prop :=
| MO_fuel : sim_out Q OutOfFuel OutOfFuel
| MO_panic : sim_out Q Panicked Panicked
| MO_done h h' a a' : sim_heap h h' -> Q a a' -> sim_out Q (Done h a) (Done h' a').
Inductive LR : stream_result -> stream_result -> Prop :=
| LR_inl r r' : LikeOption E r r' -> LR (inl r) (inl r')
| LR_inr e e' : Err e e' -> LR (inr e) (inr e').
Definition sim_res (x y : strm * stream_result) : Prop := sim x.1 y.1 /\ LR x.2 y.2.

Lemma sim_bind {B C B' C'} (Q : B -> C -> Prop) (S : B' -> C' -> Prop) o o' f f' :
  sim_out Q o o' ->
  (forall h h' a a', sim_heap h h' -> Q a a' -> sim_out S (f h a) (f' h' a')) ->
  sim_out S (obind o f) (obind o' f').
Proof. intros [] Hk; cbn; [constructor|constructor|]. by apply Hk. Qed.
Lemma sim_on_ok o o' dead dead' f f' :
  sim_out sim_res o o' -> (forall s s', sim s s' -> sim (dead s) (dead' s')) ->
  (forall h h' s s' r r', sim_heap h h' -> sim s s' -> LikeOption E r r' ->
     sim_out sim_res (f h s r) (f' h' s' r')) ->
  sim_out sim_res (on_ok o dead f) (on_ok o' dead' f').
Proof.
  intros Ho Hd Hk. unfold on_ok. eapply sim_bind; [done|].
  intros h h' [s r] [s' r'] Hh [Hs Hr]. cbn in Hs, Hr. destruct Hr as [r r' Hr|e e' He].
  - by apply Hk.
  - constructor; [done|]. split; cbn; [auto|by constructor].
Qed.
Lemma sim_emit h h' s s' ev ev' : sim_heap h h' -> sim s s' -> E ev ev' ->
  sim_out sim_res (emit h s ev) (emit h' s' ev').
Proof. intros. constructor; [done|]. split; [done|]. by apply LR_inl, LO_some. Qed.
Lemma sim_finish h h' s s' : sim_heap h h' -> sim s s' ->
  sim_out sim_res (finish h s) (finish h' s').
Proof. intros. constructor; [done|]. split; [done|]. apply LR_inl, LO_none. Qed.
Lemma sim_fail h h' s s' e e' : sim_heap h h' -> sim s s' -> Err e e' ->
  sim_out sim_res (fail h s e) (fail h' s' e').
Proof. intros. constructor; [done|]. split; [done|]. by apply LR_inr. Qed.
Lemma sim_pass o o' dead dead' cont cont' :
  sim_out sim_res o o' -> sim dead dead' -> (forall s s', sim s s' -> sim (cont s) (cont' s')) ->
  sim_out sim_res (passthrough o dead cont) (passthrough o' dead' cont').
Proof.
  intros Ho Hd Hc. unfold passthrough. eapply sim_on_ok; [done|auto|].
  intros h h' s s' r r' Hh Hs [|ev ev' He]; [apply sim_finish|apply sim_emit]; auto.
Qed.
Lemma sim_with_cell h h' l f f' :
  sim_heap h h' ->
  (forall h h' s s', sim_heap h h' -> sim s s' -> sim_out sim_res (f h s) (f' h' s')) ->
  sim_out sim_res (with_cell h l f) (with_cell h' l f').
Proof.
  intros Hh Hf. unfold with_cell.
  pose proof (Hh l) as Hl. inversion Hl as [| |s s' Hs E1 E2].
  - constructor.
  - constructor.
  - eapply sim_bind.
    + apply Hf; [|done]. apply simh_insert; [done|constructor].
    + intros j j' [t r] [t' r'] Hj [Ht Hr]. cbn in Ht, Hr. constructor.
      * apply simh_insert; [done|by constructor].
      * split; [constructor|done].
Qed.

(** ** Building *)

Lemma sim_into_stream c c' : LikeContent k c c' -> sim (into_stream c) (into_stream c').
Proof.
  induction 1 as [evs evs' He|c c' d d' Hd Hd' HX|evs evs' stop stop' He Hs|c c' Hc IH|e e' He].
  - by constructor.
  - assert (sim (SContent (Some d)) (SContent (Some d'))).
    { constructor. by apply LE_text. }
    destruct Hd, Hd'; done.
  - by constructor.
  - by constructor.
  - by constructor.
Qed.
Lemma sim_select_new h h' s s' m m' b b' direct :
  sim_heap h h' -> sim s s' -> alike_sel m m' -> alike_many b b' ->
  exists j j' t t', select_new h s m b direct = (j, t) /\
    select_new h' s' m' b' direct = (j', t') /\ sim_heap j j' /\ sim t t'.
Proof.
  intros Hh Hs Hm Hb. unfold select_new. rewrite <- (simh_fresh h h' Hh).
  do 4 eexists. split_and!; [done..| |by constructor].
  apply simh_insert; [done|by constructor].
Qed.
Lemma sim_select_once_new h h' s s' m m' p q direct :
  sim_heap h h' -> sim s s' -> alike_sel m m' -> Like k p q ->
  exists j j' t t', select_once_new h s m p direct = (j, t) /\
    select_once_new h' s' m' q direct = (j', t') /\ sim_heap j j' /\ sim t t'.
Proof.
  intros Hh Hs Hm Hb. unfold select_once_new. rewrite <- (simh_fresh h h' Hh).
  do 4 eexists. split_and!; [done..| |by constructor].
  apply simh_insert; [done|by constructor].
Qed.
Lemma changes_build o f : Changes o f -> exists c, (forall a, f a = apply_attr c a) /\
  forall h s, build_op o h s =
    Done h (if match o with ORemoveId => true | _ => false end
            then SAttr (Some (AStart s c)) else fallible_new (inl (SAttr (Some (AStart s c))))).
Proof.
  destruct 1 as [n v|n v sep|n v|n v|n|c n Hn|c|n Hn|i n Hn]; cbn [build_op]; unfold attr_new.
  - by exists (AAddAttribute n v).
  - by exists (AAddToAttribute n v sep).
  - by exists (AReplaceAttribute n (Some v)).
  - by exists (ASetAttribute n v).
  - by exists (ARemoveAttribute n).
  - rewrite Hn. by exists (AAddToAttribute n (ident_into_value c) (enc_from_unencoded_static_str (lit " "))).
  - by exists (ARemoveClass c).
  - rewrite Hn. by exists (ARemoveAttribute n).
  - rewrite Hn. by exists (ASetAttribute n (Some (ident_into_value i))).
Qed.
Lemma bad_build o err : BadName o err ->
  forall h s, build_op o h s = Done h (fallible_new (inr (SEIdentifier err))).
Proof. by destruct 1. Qed.

Lemma sim_build_op : forall o o', LikeOp k o o' -> forall h h' s s', sim_heap h h' -> sim s s' ->
  sim_out sim (build_op o h s) (build_op o' h' s').
Proof.
  fix IH 3. intros o o' Ho h h' s s' Hh Hs.
  assert (forall p q (Hp : Like k p q) h h' s s', sim_heap h h' -> sim s s' ->
    sim_out sim (build_fix p h s) (build_fix q h' s')) as IHp.
  { fix IHp 3. intros p q [|a a' p' q' Ha Hp] j j' t t' Hj Ht; cbn.
    - by constructor.
    - eapply sim_bind; [exact (IH a a' Ha j j' t t' Hj Ht)|].
      intros i i' u u' Hi Hu. exact (IHp p' q' Hp i i' u u' Hi Hu). }
  pose proof sim_into_stream as Hc.
  destruct Ho.
  all: try (cbn [build_op]; fold build_fix;
        repeat first [assumption | apply IHp; assumption
        | constructor; [assumption|] | progress constructor | apply Hc; assumption]; fail).
  - cbn [build_op]; fold build_fix.
    eapply sim_bind; [apply IHp; eassumption|]. intros. constructor; [done|]. by constructor.
  - cbn [build_op]. destruct H as [m m' Hm|e e' He]; [|constructor; [done|by constructor]].
    destruct (sim_select_new h h' s s' m m' b c direct Hh Hs Hm) as (j & j' & t & t' & E1 & E2 & ? & ?); [done|].
    rewrite E1, E2. constructor; [done|]. by constructor.
  - cbn [build_op]. destruct H as [m m' Hm|e e' He]; [|constructor; [done|by constructor]].
    destruct (sim_select_once_new h h' s s' m m' p q direct Hh Hs Hm) as (j & j' & t & t' & E1 & E2 & ? & ?); [done|].
    rewrite E1, E2. constructor; [done|]. by constructor.
  - cbn [build_op]. destruct H as [m m' Hm|e e' He]; (constructor; [done|]); [|by constructor].
    apply M_fallible_ok, M_sc_open; [done|]. by constructor.
  - cbn [build_op]. destruct H as [m m' Hm|e e' He]; (constructor; [done|]); [|by constructor].
    apply M_fallible_ok, M_sc_open; [done|]. by constructor.
  - destruct (changes_build _ _ H) as (c & Ec & Eb). destruct (changes_build _ _ H0) as (c' & Ec' & Eb').
    rewrite Eb, Eb'. clear IH IHp Eb Eb'. constructor; [done|].
    assert (alike_cmd c c') by (intros a a' Ha; rewrite <- Ec, <- Ec'; auto).
    assert (sim (SAttr (Some (AStart s c))) (SAttr (Some (AStart s' c')))) by by constructor.
    assert ((match o with ORemoveId => true | _ => false end) = (match o' with ORemoveId => true | _ => false end)) as ->.
    { match goal with Hi : o = ORemoveId <-> _ |- _ => destruct Hi as [Hi1 Hi2] end.
      destruct o, o'; try done; try (by specialize (Hi1 eq_refl)); by specialize (Hi2 eq_refl). }
    destruct (match o' with ORemoveId => true | _ => false end); [done|]. by constructor.
  - rewrite (bad_build _ _ H), (bad_build _ _ H0). constructor; [done|]. constructor. by apply LR_same.
Qed.
Lemma sim_build p q : Like k p q -> forall h h' s s', sim_heap h h' -> sim s s' ->
  sim_out sim (build p h s) (build q h' s').
Proof.
  induction 1 as [|o o' p q Ho Hp IHp]; intros h h' s s' Hh Hs; cbn.
  - by constructor.
  - eapply sim_bind; [apply sim_build_op; done|]. auto.
Qed.
Lemma sim_build_content b b' h h' s s' : sim_cb b b' -> sim_heap h h' -> sim s s' ->
  sim_out sim (build_content b h s) (build_content b' h' s').
Proof.
  intros Hb Hh Hs. destruct Hb; cbn [build_content].
  - by apply sim_build.
  - constructor; [done|]. by constructor.
  - constructor; [done|]. by repeat constructor.
  - constructor; [done|]. by repeat constructor.
  - constructor; [done|]. by repeat constructor.
  - destruct (sim_select_new h h' s s' m m' b b' direct) as (j & j' & t & t' & E1 & E2 & ? & ?); [done..|].
    rewrite E1, E2. by constructor.
  - destruct (sim_select_once_new h h' s s' m m' p q direct) as (j & j' & t & t' & E1 & E2 & ? & ?); [done..|].
    rewrite E1, E2. by constructor.
  - constructor; [done|]. by constructor.
Qed.

(** ** Tests of events *)

Lemma alike_opening e e' t t' : E e e' -> T k t t' -> is_opening_tag_for e t = is_opening_tag_for e' t'.
Proof.
  unfold is_opening_tag_for.
  intros [|x x' Hx Hx' _|u u' a a' Hu _|u u' a a' Hu _|u u' a a' Hu _|u u' Hu] Ht; cbn; auto.
  destruct x, x'; done.
Qed.
Lemma alike_closing e e' t t' : E e e' -> T k t t' -> is_closing_tag_for e t = is_closing_tag_for e' t'.
Proof.
  intros [|x x' Hx Hx' _|u u' a a' Hu _|u u' a a' Hu _|u u' a a' Hu _|u u' Hu] Ht; cbn; auto.
  destruct x, x'; done.
Qed.
Inductive LAdjust : nat + stream_error -> nat + stream_error -> Prop :=
| LA_level n : LAdjust (inl n) (inl n)
| LA_error e e' : Err e e' -> LAdjust (inr e) (inr e').
Lemma alike_adjust e e' level : E e e' -> LAdjust (adjust level e) (adjust level e').
Proof.
  intros [|x x' Hx Hx' _|u u' a a' Hu _|u u' a a' Hu _|u u' a a' Hu _|u u' Hu]; cbn; try constructor.
  - destruct x, x'; try done; constructor.
  - destruct level; constructor. by constructor.
Qed.
Lemma like_nth evs evs' i : Es evs evs' -> LikeOption E (nth_error evs i) (nth_error evs' i).
Proof.
  intros H. revert i. induction H as [|e e' evs evs' He Hs IH]; intros [|i]; cbn; try constructor; auto.
Qed.

(** ** Running *)

Record SimE (e e' : engine) : Prop :=
  { m_ne : forall h h' s s', sim_heap h h' -> sim s s' -> sim_out sim_res (ne e h s) (ne e' h' s');
    m_sk : forall h h' s s', sim_heap h h' -> sim s s' -> sim_out sim_res (sk e h s) (sk e' h' s');
    m_dr : forall h h' s s', sim_heap h h' -> sim s s' -> sim_out sim_res (dr e h s) (dr e' h' s');
    m_co : forall h h' s s' acc acc', sim_heap h h' -> sim s s' -> Es acc acc' ->
             sim_out (LikeResult k) (co e h s acc) (co e' h' s' acc') }.

Lemma sim_peek e e' h h' s s' : SimE e e' -> sim_heap h h' -> sim s s' ->
  sim_out sim_res (peek e h s) (peek e' h' s').
Proof.
  intros He Hh Hs. inversion Hs as [| | | | | | | | | | | | |t t' b b' Ht Hb| | | | | | | | | | | | | | | | | | | | | | | | | | | | | | | | | |];
    subst; cbn [peek]; try constructor.
  destruct Hb as [|ev ev' Hev].
  - eapply sim_on_ok; [apply (m_sk _ _ He); eassumption| |].
    + intros. by repeat constructor.
    + intros. constructor; [done|]. split; cbn; by constructor.
  - constructor; [done|]. split; cbn; [|apply LR_inl]; constructor; [done|by constructor|done].
Qed.

Ltac ms := first [assumption | constructor; assumption | constructor; ms].
Ltac mstep := first
  [ apply sim_emit; [assumption|ms|ms]
  | apply sim_finish; [assumption|ms]
  | apply sim_fail; [assumption|ms|ms] ].

Lemma sim_ne_body e e' h h' s s' : SimE e e' -> sim_heap h h' -> sim s s' ->
  sim_out sim_res (ne_body e h s) (ne_body e' h' s').
Proof.
  intros He Hh Hs.
  assert (forall l, sim_out sim_res (ne e h (SShared l)) (ne e' h' (SShared l))) as Hne
    by (intros; apply (m_ne _ _ He); [done|constructor]).
  assert (forall l, sim_out sim_res (sk e h (SShared l)) (sk e' h' (SShared l))) as Hsk
    by (intros; apply (m_sk _ _ He); [done|constructor]).
  inversion Hs; subst; cbn [ne_body].
  all: try (by mstep).
  all: try (by (apply sim_pass; [first [apply (m_ne _ _ He); ms | apply (m_sk _ _ He); ms | apply Hne]|ms
                                |intros; ms])).
  - (* STemplate *)
    match goal with Hev : Es evs evs' |- _ => destruct (like_nth evs evs' i Hev) end; mstep.
  - (* SUser *)
    match goal with Hev : Es evs evs' |- _ => destruct Hev end.
    + match goal with Hst : LikeOption Err stop stop' |- _ => destruct Hst end; [mstep|].
      apply sim_fail; [done| |done]. constructor; constructor.
    + mstep.
  - (* SShared *) apply sim_with_cell; [done|]. intros. by apply (m_ne _ _ He).
  - (* XStart *) eapply sim_on_ok; [apply (m_sk _ _ He); eassumption|intros; ms|].
    intros j j' t t' r r' Hj Ht Hr. destruct Hr as [|x x' Hx]; [mstep|].
    pose proof Hx as Hx0.
    destruct Hx as [|y y' Hy Hy' HX|u u' a a' Hu Ha|u u' a a' Hu Ha|u u' a a' Hu Ha|u u' Hu]; try mstep.
    destruct y, y'; try done; mstep.
  - (* SPeek *)
    match goal with Hb : LikeOption E b b' |- _ => destruct Hb end; [|mstep].
    eapply sim_on_ok; [apply (m_sk _ _ He); eassumption|intros; ms|].
    intros. constructor; [done|]. split; cbn; [ms|by apply LR_inl].
  - (* CmbFirst *) eapply sim_on_ok; [apply (m_sk _ _ He); eassumption|intros; ms|].
    intros j j' u u' r r' Hj Hu Hr. destruct Hr as [|x x' Hx]; mstep.
  - (* SRemove *) by apply (m_dr _ _ He).
  - (* SEStart *)
    match goal with Hx : E ev ev' |- _ => pose proof Hx as Hx0;
      destruct Hx as [|y y' Hy Hy' HX|u u' a a' Hu Ha|u u' a a' Hu Ha|u u' a a' Hu Ha|u u' Hu] end; try mstep.
    destruct y, y'; try done; mstep.
  - (* SEUntilClose *) eapply sim_on_ok; [apply (m_ne _ _ He); eassumption|intros; ms|].
    intros j j' u u' r r' Hj Hu Hr. destruct Hr as [|x x' Hx]; [mstep|].
    rewrite <- (alike_opening x x' t t'), <- (alike_closing x x' t t') by done.
    destruct (is_opening_tag_for x t); [mstep|]. destruct (is_closing_tag_for x t); [|mstep].
    destruct level; mstep.
  - (* SelScanning *) eapply sim_on_ok; [apply Hsk|intros; ms|].
    intros j j' u u' r r' Hj _ Hr. destruct Hr as [|x x' Hx]; [mstep|].
    match goal with Hm : alike_sel m m' |- _ => rewrite <- (Hm x x' Hx) end.
    destruct (include direct level && matches m x).
    + eapply sim_bind; [apply sim_build; [match goal with Hb : alike_many b b' |- _ => apply Hb end|done|ms]|].
      intros. mstep.
    + destruct (alike_adjust x x' level Hx); mstep.
  - (* SelActive *) eapply sim_on_ok; [apply (m_ne _ _ He); eassumption|intros; ms|].
    intros j j' u u' r r' Hj Hu Hr. destruct Hr as [|x x' Hx]; mstep.
  - (* SelOScanning *) eapply sim_on_ok; [apply Hsk|intros; ms|].
    intros j j' u u' r r' Hj _ Hr. destruct Hr as [|x x' Hx]; [mstep|].
    match goal with Hm : alike_sel m m' |- _ => rewrite <- (Hm x x' Hx) end.
    destruct (include direct level && matches m x).
    + eapply sim_bind; [apply sim_build; [eassumption|done|ms]|]. intros. mstep.
    + destruct (alike_adjust x x' level Hx); mstep.
  - (* SelOActive *) eapply sim_on_ok; [apply (m_ne _ _ He); eassumption|intros; ms|].
    intros j j' u u' r r' Hj Hu Hr. destruct Hr as [|x x' Hx]; mstep.
  - (* SCOpen *) eapply sim_on_ok; [apply (m_sk _ _ He); [done|ms]|intros; ms|].
    intros j j' u u' r r' Hj Hu Hr. destruct Hr as [|x x' Hx]; [mstep|].
    pose proof Hx as Hx0.
    destruct Hx as [|y y' Hy Hy' HX|v v' a a' Hv Ha|v v' a a' Hv Ha|v v' a a' Hv Ha|v v' Hv]; try mstep.
    + destruct y, y'; try done; mstep.
    + cbv zeta. rewrite <- (simh_fresh j j' Hj). eapply sim_bind.
      * apply sim_build_content; [eassumption| |].
        -- apply simh_insert; [done|]. constructor. constructor; [done|constructor].
        -- constructor. by constructor.
      * intros. mstep.
  - (* SCContent *) eapply sim_on_ok; [apply (m_ne _ _ He); eassumption|intros; ms|].
    intros j j' u u' r r' Hj Hu Hr. destruct Hr as [|x x' Hx]; mstep.
  - (* SCClose *) eapply sim_on_ok; [apply Hsk|intros; ms|].
    intros j j' u u' r r' Hj Hu Hr. destruct Hr as [|x x' Hx]; [mstep|].
    pose proof Hx as Hx0.
    destruct Hx as [|y y' Hy Hy' HX|v v' a a' Hv Ha|v v' a a' Hv Ha|v v' a a' Hv Ha|v v' Hv]; try mstep.
    + destruct y, y'; try done; mstep.
    + match goal with Ht : T k t t' |- _ => rewrite <- (Hco v v' t t' Hv Ht) end.
      destruct (ident_eqb v t); mstep.
  - (* SCurrentContent *)
    match goal with Hc : nat_cc st st' |- _ => destruct Hc as [|t t' l level Ht] end; [mstep|].
    assert (forall j j', sim_heap j j' ->
      sim_out sim_res
        (on_ok (ne e j (SShared l)) (fun _ => SCurrentContent None) (fun h _ r =>
          match r with
          | None => fail h (SCurrentContent None) (missing_close t)
          | Some ev =>
              match adjust level ev with
              | inl level => emit h (SCurrentContent (Some (t, l, level))) ev
              | inr _ => fail h (SCurrentContent None) (missing_close t)
              end
          end))
        (on_ok (ne e' j' (SShared l)) (fun _ => SCurrentContent None) (fun h _ r =>
          match r with
          | None => fail h (SCurrentContent None) (missing_close t')
          | Some ev =>
              match adjust level ev with
              | inl level => emit h (SCurrentContent (Some (t', l, level))) ev
              | inr _ => fail h (SCurrentContent None) (missing_close t')
              end
          end))) as Hnext.
    { intros j j' Hj. eapply sim_on_ok; [apply (m_ne _ _ He); [done|ms]|intros; ms|].
      intros i i' u u' r r' Hi Hu Hr. destruct Hr as [|x x' Hx]; [mstep|].
      destruct (alike_adjust x x' level Hx); mstep. }
    cbv zeta. destruct (negb (Nat.eqb level 0)); [by apply Hnext|].
    eapply sim_on_ok; [apply sim_with_cell; [done|intros; by apply sim_peek]|intros; ms|].
    intros j j' u u' r r' Hj Hu Hr. destruct Hr as [|x x' Hx]; [mstep|].
    rewrite <- (alike_closing x x' t t') by done.
    destruct (is_closing_tag_for x t); [mstep|by apply Hnext].
  - (* SApplyEither *) eapply sim_bind; [apply (m_ne _ _ He); eassumption|].
    intros j j' [u r] [u' r'] Hj [Hu Hr]. cbn in Hu, Hr. constructor; [done|].
    split; [ms|done].
  - (* TACollect *) eapply sim_bind; [apply (m_co _ _ He); [eassumption..|constructor]|].
    intros j j' r r' Hj [t t' Ht|err err' Herr]; [|mstep].
    match goal with Hf : alike_fun f f' |- _ => destruct (Hf t t' Ht) end; mstep.
  - (* TAEmit *) apply sim_pass; [apply (m_ne _ _ He); ms|ms|]. intros u u' Hu.
    destruct Hu; ms.
  - (* RCollect *) eapply sim_bind; [apply (m_co _ _ He); [eassumption..|constructor]|].
    intros j j' r r' Hj [t t' Ht|err err' Herr]; mstep.
  - (* RNext *) match goal with Hb : LikeAll k bs cs |- _ => destruct Hb end; [mstep|].
    eapply sim_bind; [apply sim_build; [eassumption|done|ms]|]. intros. mstep.
  - (* REmit *) eapply sim_on_ok; [apply (m_ne _ _ He); eassumption|intros; ms|].
    intros j j' u u' r r' Hj Hu Hr. destruct Hr as [|x x' Hx]; mstep.
  - (* ROEStart *) match goal with Hb : LikeAll k bs cs |- _ => pose proof Hb as Hb0; destruct Hb end.
    + eapply sim_bind; [apply sim_build; eassumption|]. intros. mstep.
    + destruct c; mstep.
  - (* AStart *) eapply sim_on_ok; [apply (m_sk _ _ He); eassumption|intros; ms|].
    intros j j' u u' r r' Hj Hu Hr. destruct Hr as [|x x' Hx]; [mstep|].
    pose proof Hx as Hx0.
    destruct Hx as [|y y' Hy Hy' HX|v v' a a' Hv Ha|v v' a a' Hv Ha|v v' a a' Hv Ha|v v' Hv]; try mstep.
    + destruct y, y'; try done; mstep.
    + apply sim_emit; [done|ms|]. constructor; [done|]. match goal with Hc : alike_cmd c c' |- _ => by apply Hc end.
    + apply sim_emit; [done|ms|]. constructor; [done|]. match goal with Hc : alike_cmd c c' |- _ => by apply Hc end.
    + apply sim_emit; [done|ms|]. constructor; [done|]. match goal with Hc : alike_cmd c c' |- _ => by apply Hc end.
Qed.

Lemma run_sim n : SimE (run n) (run n).
Proof.
  induction n as [|n IH]; split; intros; cbn [run ne sk dr co].
  1-4: constructor.
  - by apply sim_ne_body.
  - unfold sk_body. eapply sim_bind; [apply (m_ne _ _ IH); eassumption|].
    intros j j' [u r] [u' r'] Hj [Hu Hr]. cbn in Hu, Hr. pose proof Hr as Hr0.
    destruct Hr as [r r' [|x x' Hx]|err err' Herr]; try (constructor; [done|by split]).
    destruct Hx; try (constructor; [done|by split]).
    + by apply (m_sk _ _ IH).
    + destruct e, e'; try done; (constructor; [done|by split]).
  - unfold dr_body. eapply sim_bind; [apply (m_ne _ _ IH); eassumption|].
    intros j j' [u r] [u' r'] Hj [Hu Hr]. cbn in Hu, Hr. pose proof Hr as Hr0.
    destruct Hr as [r r' [|x x' Hx]|err err' Herr]; try (constructor; [done|split; [ms|done]]).
    by apply (m_dr _ _ IH).
  - unfold co_body. eapply sim_bind; [apply (m_sk _ _ IH); eassumption|].
    intros j j' [u r] [u' r'] Hj [Hu Hr]. cbn in Hu, Hr.
    destruct Hr as [r r' [|x x' Hx]|err err' Herr]; try (constructor; [done|by constructor]).
    apply (m_co _ _ IH); [done..|]. apply Forall2_app; [done|]. by constructor.
Qed.

Lemma sim_transform n evs evs' p q : Es evs evs' -> Like k p q ->
  sim_out (LikeResult k) (transform n evs p) (transform n evs' q).
Proof.
  intros Hev Hp. unfold transform. eapply sim_bind.
  - apply sim_build; [exact Hp| |by constructor].
    intros l. rewrite !lookup_empty. constructor.
  - intros. apply (m_co _ _ (run_sim n)); [done..|constructor].
Qed.
Lemma like_gives evs evs' p q : Es evs evs' -> Like k p q ->
  (forall r, Gives evs p r -> exists r', Gives evs' q r' /\ LikeResult k r r') /\
  (forall r', Gives evs' q r' -> exists r, Gives evs p r /\ LikeResult k r r').
Proof.
  intros Hev Hp. split.
  - intros r (n & h & H). pose proof (sim_transform n evs evs' p q Hev Hp) as Hs.
    rewrite H in Hs. inversion Hs; subst. eexists. split; [|done]. by exists n, h'.
  - intros r (n & h & H). pose proof (sim_transform n evs evs' p q Hev Hp) as Hs.
    rewrite H in Hs. inversion Hs; subst. eexists. split; [|done]. by eexists n, _.
Qed.
End Natural.
