(** Proofs for C67, part 2: every run of a program with state is a run of a program without.

    The program without state is found going backwards: from the streams at the end of a step
    to the streams at its start. *)
From Coq Require Import String ZArith Lia.
From stdpp Require Import gmap.
From Verif Require Import Text Event Input Parse Selector Machine MachineState.
From Verif Require Import SpecTransform SpecState StateProofs.
Local Open Scope nat_scope.

(** ** Agreement is transitive *)

Lemma eqv_trans s1 s2 s3 : eqv s1 s2 -> eqv s2 s3 -> eqv s1 s3.
Proof.
  intros H. revert s3. induction H; intros s3 H3; inversion H3; subst; try (constructor; auto; fail).
  - constructor. intros i Hi. rewrite H by done. auto.
  - constructor. intros i Hi. rewrite H by done. auto.
  - constructor; auto. intros i Hi. rewrite H by done. auto.
Qed.
Lemma eqc_trans c1 c2 c3 : eqc c1 c2 -> eqc c2 c3 -> eqc c1 c3.
Proof. intros [] H3; inversion H3; subst; constructor. eauto using eqv_trans. Qed.
Lemma eqh_trans h1 h2 h3 : eqh h1 h2 -> eqh h2 h3 -> eqh h1 h3.
Proof. intros H1 H2 l. eapply eqc_trans; eauto. Qed.
Lemma eqo_trans {A} (R : A -> A -> Prop) o1 o2 o3 :
  (forall a b c, R a b -> R b c -> R a c) -> eqo R o1 o2 -> eqo R o2 o3 -> eqo R o1 o3.
Proof.
  intros Ht [| |h1 h2 a1 a2 Hh Ha] H3; inversion H3; subst; constructor;
    eauto using eqh_trans.
Qed.
Lemma eqr_trans {B} (a b c : strm * B) : eqr a b -> eqr b c -> eqr a c.
Proof. intros [H1 H2] [H3 H4]. split; [eauto using eqv_trans|congruence]. Qed.
Lemma eqr_refl {B} (a : strm * B) : eqr a a.
Proof. split; [apply eqv_refl|done]. Qed.
Lemma eqo_refl o : eqo (A := strm * stream_result) eqr o o.
Proof. destruct o; constructor; [apply eqh_refl|apply eqr_refl]. Qed.

Section Back.
Context {W : Type} (N : nat) (w0 : W).

(** ** Every program with state can turn out to be some program *)

Fixpoint freeze_events (f : live W) (k i : nat) : list event * option stream_error :=
  match k with
  | O => ([], None)
  | S k => match snd (f i w0) with
           | inl None => ([], None)
           | inr err => ([], Some err)
           | inl (Some ev) => let '(evs, stop) := freeze_events f k (S i) in (ev :: evs, stop)
           end
  end.
Fixpoint freeze_content (c : wcontent W) : content :=
  match c with
  | WCPlain c => c
  | WCLive f => let '(evs, stop) := freeze_events f N 0 in CStream evs stop
  | WCOk c => CResult (inl (freeze_content c))
  end.
Lemma freeze_events_possible f k : forall i f', (forall j, f' j = f (i + j)) ->
  PossibleEvents k f' (freeze_events f k i).1 (freeze_events f k i).2.
Proof.
  induction k as [|k IHk]; intros i f' E; cbn [freeze_events]; [constructor|].
  destruct (snd (f i w0)) as [[ev|]|err] eqn:Ef.
  - destruct (freeze_events f k (S i)) as [evs stop] eqn:E2. cbn.
    apply (PE_event (S k) f' w0); [rewrite E, Nat.add_0_r; done|]. cbn [pred].
    specialize (IHk (S i) (fun j => f' (S j))). rewrite E2 in IHk. apply IHk.
    intros j. rewrite E. f_equal. lia.
  - apply (PE_end (S k) f' w0). by rewrite E, Nat.add_0_r.
  - apply (PE_fail (S k) f' w0). by rewrite E, Nat.add_0_r.
Qed.
Lemma freeze_content_possible c : PossibleContent N c (freeze_content c).
Proof.
  induction c as [c|f|c IH]; cbn; try (by constructor).
  pose proof (freeze_events_possible f N 0 f ltac:(done)) as H.
  destruct (freeze_events f N 0) as [evs stop]. by constructor.
Qed.

Fixpoint freeze_op (o : wop W) : op :=
  let items := fun it : iterator W => fix items (k i : nat) : list pipeline :=
    match k with
    | O => []
    | S k => match snd (it i w0) with
             | None => []
             | Some b => map freeze_op (snd (b w0)) :: items k (S i)
             end
    end in
  match o with
  | WApply p => OApply (map freeze_op p)
  | WIntoBoxed => OIntoBoxed
  | WIntoBoxedElement => OIntoBoxedElement
  | WApplyEither first p other => OApplyEither first (map freeze_op p) other
  | WApplyAsTemplate f => OApplyAsTemplate (fun evs => snd (f w0 evs))
  | WSelect direct sel b => OSelect direct sel (fun k => map freeze_op (snd (b k w0)))
  | WSelectOnce direct sel b => OSelectOnce direct sel (map freeze_op (snd (b w0)))
  | WRemove => ORemove
  | WPrepend c => OPrepend (freeze_content c)
  | WAppend c => OAppend (freeze_content c)
  | WReplace c => OReplace (freeze_content c)
  | WRepeat it => ORepeat (items it N 0)
  | WRepeatOrElse it b => ORepeatOrElse (items it N 0) (map freeze_op (snd (b w0)))
  | WSubselectContents b => OSubselectContents (map freeze_op (snd (b w0)))
  | WSubselect direct sel b => OSubselect direct sel (fun k => map freeze_op (snd (b k w0)))
  | WSubselectOnce direct sel b => OSubselectOnce direct sel (map freeze_op (snd (b w0)))
  | WRemoveContents => ORemoveContents
  | WPrependContents c => OPrependContents (freeze_content c)
  | WAppendContents c => OAppendContents (freeze_content c)
  | WReplaceContents c => OReplaceContents (freeze_content c)
  | WRepeatContents it => ORepeatContents (items it N 0)
  | WRepeatContentsOrElse it b =>
      ORepeatContentsOrElse (items it N 0) (map freeze_op (snd (b w0)))
  | WAddAttribute name v => OAddAttribute name v
  | WAddToAttribute name v sep => OAddToAttribute name v sep
  | WReplaceAttribute name v => OReplaceAttribute name v
  | WSetAttribute name v => OSetAttribute name v
  | WRemoveAttribute name => ORemoveAttribute name
  | WAddClass name => OAddClass name
  | WRemoveClass name => ORemoveClass name
  | WRemoveId => ORemoveId
  | WSetId name => OSetId name
  end.
Definition freeze_items (it : iterator W) := fix items (k i : nat) : list pipeline :=
  match k with
  | O => []
  | S k => match snd (it i w0) with
           | None => []
           | Some b => map freeze_op (snd (b w0)) :: items k (S i)
           end
  end.

Lemma freeze_op_possible : forall o, PossibleOp N o (freeze_op o).
Proof.
  fix IH 1. intros o.
  assert (forall p, Possible N p (map freeze_op p)) as IHp.
  { induction p as [|c p IHp]; cbn; constructor; auto. }
  assert (forall it k i it', (forall j, it' j = it (i + j)) ->
            PossibleItems N k it' (freeze_items it k i)) as IHi.
  { intros it k. induction k as [|k IHk]; intros i it' E; cbn [freeze_items].
    - constructor.
    - destruct (snd (it i w0)) as [b|] eqn:Eb.
      + apply (P_item N (S k) it' w0 b w0).
        * rewrite E, Nat.add_0_r. done.
        * apply IHp.
        * cbn [pred]. apply IHk. intros j. rewrite E. f_equal. lia.
      + apply (P_end N (S k) it' w0). rewrite E, Nat.add_0_r. done. }
  pose proof freeze_content_possible as IHc.
  destruct o; cbn [freeze_op]; try (constructor; auto; fail);
    try (constructor; apply (IHi it N 0); done).
  - constructor. intros. by exists w0.
  - constructor. intros k. by exists w0.
  - by apply (P_select_once N _ _ _ _ w0).
  - apply (P_repeat_or_else N _ _ _ _ w0); [apply (IHi it N 0); done|auto].
  - by apply (P_sub_contents N _ _ w0).
  - constructor. intros k. by exists w0.
  - by apply (P_subselect_once N _ _ _ _ w0).
  - apply (P_repeat_contents_or_else N _ _ _ _ w0); [apply (IHi it N 0); done|auto].
Qed.
Lemma freeze_possible p : Possible N p (map freeze_op p).
Proof. induction p; cbn; constructor; auto. apply freeze_op_possible. Qed.
Lemma freeze_items_possible it k : PossibleItems N k it (freeze_items it k 0).
Proof.
  cut (forall k i it', (forall j, it' j = it (i + j)) ->
         PossibleItems N k it' (freeze_items it k i)).
  { intros H. by apply H. }
  clear k. induction k as [|k IHk]; intros i it' E; cbn [freeze_items].
  - constructor.
  - destruct (snd (it i w0)) as [b|] eqn:Eb.
    + apply (P_item N (S k) it' w0 b w0).
      * rewrite E, Nat.add_0_r. done.
      * apply freeze_possible.
      * cbn [pred]. apply IHk. intros j. rewrite E. f_equal. lia.
    + apply (P_end N (S k) it' w0). rewrite E, Nat.add_0_r. done.
Qed.

Lemma items_less k k' (it : iterator W) bs : k' <= k -> PossibleItems N k it bs -> PossibleItems N k' it bs.
Proof.
  intros Hk H. revert k k' it Hk H. induction bs as [|p bs IH]; intros k k' it Hk H.
  - inversion H; subst; [by apply (P_end N k' it w)|].
    replace k' with 0 by lia. constructor.
  - inversion H; subst. eapply P_item; try eassumption. apply (IH (pred k)); [lia|done].
Qed.

Lemma events_less k k' (f : live W) evs stop :
  k' <= k -> PossibleEvents k f evs stop -> PossibleEvents k' f evs stop.
Proof.
  intros Hk H. revert k k' f Hk H. induction evs as [|ev evs IH]; intros k k' f Hk H.
  - inversion H; subst; [by apply (PE_end k' f w)|by apply (PE_fail k' f w)|].
    replace k' with 0 by lia. constructor.
  - inversion H; subst. eapply PE_event; try eassumption. apply (IH (pred k)); [lia|done].
Qed.

(** ** Streams of programs that can turn out to be each other *)

Definition rel_many (b : builder W) (b0 : nat -> pipeline) : Prop :=
  forall k, exists w, Possible N (snd (b k w)) (b0 k).
Definition rel_once (b : once W) (p0 : pipeline) : Prop :=
  exists w, Possible N (snd (b w)) p0.
Definition rel_fun (f : W -> list event -> W * (list event + stream_error))
    (f0 : list event -> list event + stream_error) : Prop :=
  forall evs, exists w, f0 evs = snd (f w evs).
Definition rel_items (i : items W) (bs : list pipeline) : Prop :=
  match i with
  | Items None it => PossibleItems N N it bs
  | Items (Some b) it =>
      exists p0 rest, bs = p0 :: rest /\ rel_once b p0 /\ PossibleItems N N it rest
  end.

Inductive rel : wstrm W -> strm -> Prop :=
| R_template evs i : rel (WSTemplate evs i) (STemplate evs i)
| R_user evs stop : rel (WSUser evs stop) (SUser evs stop)
| R_live_none : rel (WSLive None) (SUser [] None)
| R_live f evs stop : PossibleEvents N f evs stop -> rel (WSLive (Some f)) (SUser evs stop)
| R_content d : rel (WSContent d) (SContent d)
| R_shared l : rel (WSShared l) (SShared l)
| R_fallible_none : rel (WSFallible None) (SFallible None)
| R_fallible_ok s s' : rel s s' ->
    rel (WSFallible (Some (WFStart (inl s)))) (SFallible (Some (FStart (inl s'))))
| R_fallible_err e : rel (WSFallible (Some (WFStart (inr e)))) (SFallible (Some (FStart (inr e))))
| R_fallible_emit s s' : rel s s' ->
    rel (WSFallible (Some (WFEmit s))) (SFallible (Some (FEmit s')))
| R_expand_none : rel (WSExpand None) (SExpand None)
| R_expand_start s s' : rel s s' ->
    rel (WSExpand (Some (WXStart s))) (SExpand (Some (XStart s')))
| R_expand_stream s s' : rel s s' ->
    rel (WSExpand (Some (WXEmitStream s))) (SExpand (Some (XEmitStream s')))
| R_expand_close tag :
    rel (WSExpand (Some (WXEmitClosingTag tag))) (SExpand (Some (XEmitClosingTag tag)))
| R_peek s s' b : rel s s' -> rel (WSPeek s b) (SPeek s' b)
| R_combine_none : rel (WSCombine None) (SCombine None)
| R_combine_first s s' t t' : rel s s' -> rel t t' ->
    rel (WSCombine (Some (WCmbFirst s t))) (SCombine (Some (CmbFirst s' t')))
| R_combine_second s s' : rel s s' ->
    rel (WSCombine (Some (WCmbSecond s))) (SCombine (Some (CmbSecond s')))
| R_remove s s' : rel s s' -> rel (WSRemove s) (SRemove s')
| R_single_none : rel (WSSingle None) (SSingle None)
| R_single_start ev s s' : rel s s' ->
    rel (WSSingle (Some (WSEStart ev s))) (SSingle (Some (SEStart ev s')))
| R_single_until tag s s' level : rel s s' ->
    rel (WSSingle (Some (WSEUntilClose tag s level))) (SSingle (Some (SEUntilClose tag s' level)))
| R_select_none l m b b' calls direct : rel_many b b' ->
    rel (WSSelect l m b calls direct None) (SSelect l m b' calls direct None)
| R_select_scan l m b b' calls direct level : rel_many b b' ->
    rel (WSSelect l m b calls direct (Some (WSelScanning level)))
        (SSelect l m b' calls direct (Some (SelScanning level)))
| R_select_active l m b b' calls direct level s s' : rel_many b b' -> rel s s' ->
    rel (WSSelect l m b calls direct (Some (WSelActive level s)))
        (SSelect l m b' calls direct (Some (SelActive level s')))
| R_once_none l : rel (WSSelectOnce l None) (SSelectOnce l None)
| R_once_scan l m b p direct level : rel_once b p ->
    rel (WSSelectOnce l (Some (WSelOScanning m b direct level)))
        (SSelectOnce l (Some (SelOScanning m p direct level)))
| R_once_active l s s' : rel s s' ->
    rel (WSSelectOnce l (Some (WSelOActive s))) (SSelectOnce l (Some (SelOActive s')))
| R_once_pass l :
    rel (WSSelectOnce l (Some WSelOPassthrough)) (SSelectOnce l (Some SelOPassthrough))
| R_sc_none : rel (WSSelectContent None) (SSelectContent None)
| R_sc_open s s' b b' : rel s s' -> rel_cb b b' ->
    rel (WSSelectContent (Some (WSCOpen s b))) (SSelectContent (Some (SCOpen s' b')))
| R_sc_content l s s' tag : rel s s' ->
    rel (WSSelectContent (Some (WSCContent l s tag))) (SSelectContent (Some (SCContent l s' tag)))
| R_sc_close l tag :
    rel (WSSelectContent (Some (WSCClose l tag))) (SSelectContent (Some (SCClose l tag)))
| R_cc st : rel (WSCurrentContent st) (SCurrentContent st)
| R_either first s s' : rel s s' -> rel (WSApplyEither first s) (SApplyEither first s')
| R_ta_none : rel (WSTemplateApply None) (STemplateApply None)
| R_ta_collect s s' f f' : rel s s' -> rel_fun f f' ->
    rel (WSTemplateApply (Some (WTACollect s f))) (STemplateApply (Some (TACollect s' f')))
| R_ta_emit evs i :
    rel (WSTemplateApply (Some (WTAEmit evs i))) (STemplateApply (Some (TAEmit evs i)))
| R_repeat_none : rel (WSRepeat None) (SRepeat None)
| R_repeat_collect s s' i bs : rel s s' -> rel_items i bs ->
    rel (WSRepeat (Some (WRCollect s i))) (SRepeat (Some (RCollect s' bs)))
| R_repeat_next t i bs : rel_items i bs ->
    rel (WSRepeat (Some (WRNext t i))) (SRepeat (Some (RNext t bs)))
| R_repeat_emit t s s' i bs : rel s s' -> rel_items i bs ->
    rel (WSRepeat (Some (WREmit t s i))) (SRepeat (Some (REmit t s' bs)))
| R_roe_none : rel (WSRepeatOrElse None) (SRepeatOrElse None)
| R_roe_start c s s' it bs b p : rel s s' -> PossibleItems N N it bs -> rel_once b p ->
    rel (WSRepeatOrElse (Some (WROEStart c s it b))) (SRepeatOrElse (Some (ROEStart c s' bs p)))
| R_roe_fallback s s' : rel s s' ->
    rel (WSRepeatOrElse (Some (WROEFallback s))) (SRepeatOrElse (Some (ROEFallback s')))
| R_roe_repeat s s' : rel s s' ->
    rel (WSRepeatOrElse (Some (WROERepeat s))) (SRepeatOrElse (Some (ROERepeat s')))
| R_attr_none : rel (WSAttr None) (SAttr None)
| R_attr_start s s' c : rel s s' ->
    rel (WSAttr (Some (WAStart s c))) (SAttr (Some (AStart s' c)))
| R_attr_emit s s' : rel s s' ->
    rel (WSAttr (Some (WAEmit s))) (SAttr (Some (AEmit s')))
with rel_cb : wcontent_builder -> content_builder -> Prop :=
| RC_user b p : rel_once b p -> rel_cb (WCBUser b) (CBUser p)
| RC_remove : rel_cb WCBRemove CBRemove
| RC_replace n n' : rel n n' -> rel_cb (WCBReplace n) (CBReplace n')
| RC_append n n' : rel n n' -> rel_cb (WCBAppend n) (CBAppend n')
| RC_prepend n n' : rel n n' -> rel_cb (WCBPrepend n) (CBPrepend n')
| RC_select direct m b b' : rel_many b b' -> rel_cb (WCBSelect direct m b) (CBSelect direct m b')
| RC_select_once direct m b p : rel_once b p ->
    rel_cb (WCBSelectOnce direct m b) (CBSelectOnce direct m p)
| RC_repeat i bs : rel_items i bs -> rel_cb (WCBRepeat i) (CBRepeat bs).

Lemma many_total b : exists b0, rel_many b b0.
Proof. exists (fun k => map freeze_op (snd (b k w0))). intros k. exists w0. apply freeze_possible. Qed.
Lemma once_total b : exists p0, rel_once b p0.
Proof. exists (map freeze_op (snd (b w0))), w0. apply freeze_possible. Qed.
Lemma fun_total f : exists f0, rel_fun f f0.
Proof. exists (fun evs => snd (f w0 evs)). intros evs. by exists w0. Qed.
Lemma iter_total (it : iterator W) : exists bs, PossibleItems N N it bs.
Proof. eexists. apply freeze_items_possible. Qed.
Lemma live_total (f : live W) : exists evs stop, PossibleEvents N f evs stop.
Proof. do 2 eexists. by apply (freeze_events_possible f N 0). Qed.
Lemma items_total i : exists bs, rel_items i bs.
Proof.
  destruct i as [[b|] it]; cbn; [|apply iter_total].
  destruct (once_total b) as [p Hp], (iter_total it) as [bs Hbs]. exists (p :: bs), p, bs. done.
Qed.

Lemma rel_total : forall s, exists s0, rel s s0.
Proof.
  fix IH 1. intros s. destruct s as
    [ | |[f|] | | | [[[s|]|s]|] | [[s|s|]|] | s | [[s t|s]|] | s | [[? s|? s]|]
    | l m b calls direct [[|? s]|] | ? [[? b|s|]|] | [[s cb|? s|]|] | | ? s | [[s f|]|]
    | [[s i|? i|? s i]|] | [[? s it b|s|s]|] | [[s|s]|]];
  repeat match goal with
  | s : wstrm W |- _ =>
      lazymatch goal with
      | _ : rel s _ |- _ => fail
      | _ => let s0 := fresh "s0" in let H := fresh "H" in destruct (IH s) as [s0 H]
      end
  end.
  all: try (destruct (many_total b) as [b0 Hb]).
  all: try (destruct (once_total b) as [p0 Hp]).
  all: try (destruct (live_total f) as (evs0 & stop0 & Hl)).
  all: try (destruct (fun_total f) as [f0 Hf]).
  all: try (destruct (items_total i) as [bs Hi]).
  all: try (destruct (iter_total it) as [bs Hi]).
  all: try (eexists; constructor; eassumption; fail).
  assert (exists cb0, rel_cb cb cb0) as [cb0 Hcb].
  { destruct cb as [b| |n|n|n|? ? b|? ? b|i].
    - destruct (once_total b) as [p0 Hp]. eexists. by constructor.
    - eexists. by constructor.
    - destruct (IH n) as [n0 Hn]. eexists. by constructor.
    - destruct (IH n) as [n0 Hn]. eexists. by constructor.
    - destruct (IH n) as [n0 Hn]. eexists. by constructor.
    - destruct (many_total b) as [p0 Hp]. eexists. by constructor.
    - destruct (once_total b) as [p0 Hp]. eexists. by constructor.
    - destruct (items_total i) as [p0 Hp]. eexists. by constructor. }
  eexists. constructor; eassumption.
Qed.
Lemma cb_total cb : exists cb0, rel_cb cb cb0.
Proof.
  destruct cb as [b| |n|n|n|? ? b|? ? b|i].
  - destruct (once_total b) as [p0 Hp]. eexists. by constructor.
  - eexists. by constructor.
  - destruct (rel_total n) as [n0 Hn]. eexists. by constructor.
  - destruct (rel_total n) as [n0 Hn]. eexists. by constructor.
  - destruct (rel_total n) as [n0 Hn]. eexists. by constructor.
  - destruct (many_total b) as [p0 Hp]. eexists. by constructor.
  - destruct (once_total b) as [p0 Hp]. eexists. by constructor.
  - destruct (items_total i) as [p0 Hp]. eexists. by constructor.
Qed.

(** ** Heaps and outcomes *)

Inductive rel_cell : option (wcell W) -> option cell -> Prop :=
| RL_none : rel_cell None None
| RL_borrowed : rel_cell (Some WBorrowed) (Some Borrowed)
| RL_cell s s' : rel s s' -> rel_cell (Some (WCell s)) (Some (Cell s')).
Definition rel_heap (h : gmap loc (wcell W)) (h0 : heap) : Prop :=
  forall l, rel_cell (h !! l) (h0 !! l).

Lemma cell_total c : exists c0, rel_cell c c0.
Proof.
  destruct c as [[s|]|].
  - destruct (rel_total s) as [s0 Hs]. eexists. by constructor.
  - eexists. by constructor.
  - eexists. by constructor.
Qed.
Lemma heap_total h : exists h0, rel_heap h h0.
Proof.
  induction h as [|l c h Hl [h0 IH]] using map_ind.
  - exists ∅. intros l. rewrite !lookup_empty. constructor.
  - destruct (cell_total (Some c)) as [[c0|] Hc]; [|inversion Hc].
    exists (<[l := c0]> h0). intros k. destruct (decide (l = k)) as [->|Hn].
    + by rewrite !lookup_insert.
    + rewrite !lookup_insert_ne by done. apply IH.
Qed.
Lemma heap_insert h h0 l c c0 : rel_heap h h0 -> rel_cell (Some c) (Some c0) ->
  rel_heap (<[l := c]> h) (<[l := c0]> h0).
Proof.
  intros Hh Hc k. destruct (decide (l = k)) as [->|Hn].
  - by rewrite !lookup_insert.
  - rewrite !lookup_insert_ne by done. apply Hh.
Qed.
(** the heap before an allocation *)
Lemma heap_uninsert h h0 l c : h !! l = None -> rel_heap (<[l := c]> h) h0 ->
  exists c0, rel_cell (Some c) (Some c0) /\ rel_heap h (delete l h0) /\
    <[l := c0]> (delete l h0) = h0.
Proof.
  intros Hl Hh. pose proof (Hh l) as Hc. rewrite lookup_insert in Hc.
  destruct (h0 !! l) as [c0|] eqn:E; [|inversion Hc]. exists c0. split; [done|]. split.
  - intros k. destruct (decide (l = k)) as [->|Hn].
    + rewrite lookup_delete, Hl. constructor.
    + rewrite lookup_delete_ne by done. specialize (Hh k). by rewrite lookup_insert_ne in Hh.
  - by rewrite insert_delete.
Qed.
Lemma heap_fresh h h0 : rel_heap h h0 -> wfresh_loc h = fresh_loc h0.
Proof.
  intros Hh. apply fold_locs_eq. intros l. specialize (Hh l).
  inversion Hh; split; intros [? ?]; eauto; congruence.
Qed.
Lemma wfresh_none (h : gmap loc (wcell W)) : h !! wfresh_loc h = None.
Proof.
  destruct (h !! wfresh_loc h) as [c|] eqn:E; [|done].
  destruct (fold_locs h) as [H _]. specialize (H (wfresh_loc h)). rewrite E in H.
  exfalso. unfold wfresh_loc in H at 1. specialize (H ltac:(eauto)).
  unfold wfresh_loc in H. lia.
Qed.

Inductive rel_out {A B} (R : A -> B -> Prop) : wout W A -> out B -> Prop :=
| RO_fuel : rel_out R WOutOfFuel OutOfFuel
| RO_panic : rel_out R WPanicked Panicked
| RO_done h w h0 a a0 : rel_heap h h0 -> R a a0 -> rel_out R (WDone (h, w) a) (Done h0 a0).
Definition rel_res (x : wstrm W * stream_result) (y : strm * stream_result) : Prop :=
  rel x.1 y.1 /\ x.2 = y.2.

(** ** Building, backwards *)

Lemma into_stream_rel c : forall n0, rel (winto_stream c) n0 -> n0 = into_stream c.
Proof.
  revert c. fix IH 1. intros [evs|d|v|s|z|evs stop|[c|e]] n0 H; cbn in H; inversion H; subst; cbn;
    try done.
  f_equal. f_equal. f_equal. f_equal. by apply IH.
Qed.

Lemma content_stream_rel c : forall n0, rel (wcontent_stream c) n0 ->
  exists c0, PossibleContent N c c0 /\ n0 = into_stream c0.
Proof.
  induction c as [c|f|c IH]; intros n0 H; cbn in H.
  - exists c. split; [constructor|by apply into_stream_rel].
  - inversion H; subst. eexists. split; [by constructor|done].
  - inversion H; subst. match goal with H : rel _ _ |- _ => apply IH in H as (c0 & Hc & ->) end.
    eexists. split; [by constructor|done].
Qed.

Ltac inv_done Ho :=
  let h0 := fresh "h0" in let t0 := fresh "t0" in let Hh := fresh "Hh" in let Ht := fresh "Ht" in
  inversion Ho as [| |? ? h0 ? t0 Hh Ht]; subst; clear Ho.
Ltac inv_rel :=
  repeat match goal with
  | H : rel (wcontent_stream _) _ |- _ =>
      let c0 := fresh "c0" in let Hc := fresh "Hc" in
      apply content_stream_rel in H as (c0 & Hc & ->)
  | H : rel (_ _) _ |- _ => inversion H; subst; clear H
  | H : rel_cb (_ _) _ |- _ => inversion H; subst; clear H
  end.

Lemma back_attr h w s name c o0 :
  rel_out rel (wattr_new (h, w) s name c) o0 ->
  exists h0 s0, rel_heap h h0 /\ rel s s0 /\ attr_new h0 s0 name c = o0.
Proof.
  intros Ho. unfold wattr_new, attr_new in *. destruct name as [name|e].
  - destruct (c name) eqn:Ec.
    + inv_done Ho. inv_rel. eauto.
    + inversion Ho. destruct (heap_total h) as [h0 ?], (rel_total s) as [s0 ?]. eauto.
  - inv_done Ho. inv_rel. destruct (rel_total s) as [s0 ?]. eauto.
Qed.

Lemma back_select h w s m b direct h' w' s' h0' s0' :
  wselect_new (h, w) s m b direct = ((h', w'), s') -> rel_heap h' h0' -> rel s' s0' ->
  exists b0 h0 s0, rel_many b b0 /\ rel_heap h h0 /\ rel s s0 /\
    select_new h0 s0 m b0 direct = (h0', s0').
Proof.
  intros E Hh Hs. unfold wselect_new in E. cbn [fst snd] in E. simplify_eq. inv_rel.
  apply heap_uninsert in Hh as (c0 & Hc & Hh & E); [|apply wfresh_none].
  inversion Hc; subst. do 3 eexists. split_and!; [eassumption..|].
  unfold select_new. by rewrite <- (heap_fresh _ _ Hh), E.
Qed.
Lemma back_select_once h w s m b direct h' w' s' h0' s0' :
  wselect_once_new (h, w) s m b direct = ((h', w'), s') -> rel_heap h' h0' -> rel s' s0' ->
  exists b0 h0 s0, rel_once b b0 /\ rel_heap h h0 /\ rel s s0 /\
    select_once_new h0 s0 m b0 direct = (h0', s0').
Proof.
  intros E Hh Hs. unfold wselect_once_new in E. cbn [fst snd] in E. simplify_eq. inv_rel.
  apply heap_uninsert in Hh as (c0 & Hc & Hh & E); [|apply wfresh_none].
  inversion Hc; subst. do 3 eexists. split_and!; [eassumption..|].
  unfold select_once_new. by rewrite <- (heap_fresh _ _ Hh), E.
Qed.

Definition wbuild_fix :=
  fix wbuild (p : wpipeline W) (h : wheap W) (s : wstrm W) {struct p} : wout W (wstrm W) :=
  match p with
  | [] => WDone h s
  | o :: p => wbind (wbuild_op o h s) (fun h s => wbuild p h s)
  end.
Lemma wbuild_fix_eq p h s : wbuild_fix p h s = wbuild p h s.
Proof.
  revert h s. induction p as [|o p IH]; intros h s; cbn; [done|].
  destruct (wbuild_op o h s); cbn; auto.
Qed.

Lemma back_build_op : forall o h w s o0, rel_out rel (wbuild_op o (h, w) s) o0 ->
  exists c h0 s0, PossibleOp N o c /\ rel_heap h h0 /\ rel s s0 /\ build_op c h0 s0 = o0.
Proof.
  fix IH 1. intros o h w s o0 Ho.
  assert (forall p h w s o0, rel_out rel (wbuild_fix p (h, w) s) o0 ->
    exists c h0 s0, Possible N p c /\ rel_heap h h0 /\ rel s s0 /\ build_fix c h0 s0 = o0) as IHp.
  { induction p as [|o' p IHp]; intros k v t x0 Hx; cbn in Hx.
    - inv_done Hx. eexists [], _, _. split_and!; [constructor|eassumption..|done].
    - pose proof (IH o' k v t) as IHo. destruct (wbuild_op o' (k, v) t) as [| |[k1 v1] t1]; cbn in Hx.
      + inversion Hx; subst. destruct (IHo OutOfFuel) as (c & h0 & s0 & H1 & H2 & H3 & H4); [constructor|].
        exists (c :: map freeze_op p), h0, s0. split_and!; [|done..|cbn; by rewrite H4].
        constructor; [done|apply freeze_possible].
      + inversion Hx; subst. destruct (IHo Panicked) as (c & h0 & s0 & H1 & H2 & H3 & H4); [constructor|].
        exists (c :: map freeze_op p), h0, s0. split_and!; [|done..|cbn; by rewrite H4].
        constructor; [done|apply freeze_possible].
      + apply IHp in Hx as (p0 & h1 & s1 & H1 & H2 & H3 & H4).
        destruct (IHo (Done h1 s1)) as (c & h0 & s0 & H5 & H6 & H7 & H8); [by constructor|].
        exists (c :: p0), h0, s0. split_and!; [by constructor|done..|cbn; by rewrite H8]. }
  destruct o; cbn [wbuild_op] in Ho; fold wbuild_fix in Ho.
  all: try (apply back_attr in Ho as (h0 & s0 & ? & ? & ?);
            eexists _, h0, s0; split_and!; [econstructor|done..]; fail).
  all: try (inv_done Ho; inv_rel; cbn [rel_items plain] in *; unfold rel_once in *; repeat match goal with H : exists _, _ |- _ => destruct H end; eexists _, _, _;
            split_and!; [econstructor; eassumption|eassumption..|done]; fail).
  - apply IHp in Ho as (p0 & h0 & s0 & H1 & H2 & H3 & H4).
    exists (OApply p0), h0, s0. split_and!; [by constructor|done..].
  - specialize (IHp p h w s). destruct (wbuild_fix p (h, w) s) as [| |[h1 w1] s1]; cbn in Ho.
    + inversion Ho; subst. destruct (IHp OutOfFuel) as (c & h0 & s0 & H1 & H2 & H3 & H4); [constructor|].
      exists (OApplyEither first c other_elem), h0, s0. split_and!; [by constructor|done..|].
      cbn [build_op]. fold build_fix. by rewrite H4.
    + inversion Ho; subst. destruct (IHp Panicked) as (c & h0 & s0 & H1 & H2 & H3 & H4); [constructor|].
      exists (OApplyEither first c other_elem), h0, s0. split_and!; [by constructor|done..|].
      cbn [build_op]. fold build_fix. by rewrite H4.
    + inv_done Ho. inv_rel. destruct (IHp (Done h0 s')) as (c & h2 & s2 & G1 & G2 & G3 & G4); [by constructor|].
      exists (OApplyEither first c other_elem), h2, s2. split_and!; [by constructor|done..|].
      cbn [build_op]. fold build_fix. by rewrite G4.
  - destruct sel as [m|e].
    + destruct (wselect_new (h, w) s m b direct) as [[h1 w1] s1] eqn:E. inv_done Ho. inv_rel.
      eapply back_select in E as (b0 & h2 & s0 & G1 & G2 & G3 & G4); [|eassumption..].
      exists (OSelect direct (inl m) b0), h2, s0. split_and!; [by constructor|done..|].
      cbn [build_op]. by rewrite G4.
    + inv_done Ho. inv_rel. destruct (many_total b) as [b0 Hb], (rel_total s) as [s0 Hs].
      exists (OSelect direct (inr e) b0), h0, s0. split_and!; [by constructor|done..].
  - destruct sel as [m|e].
    + destruct (wselect_once_new (h, w) s m b direct) as [[h1 w1] s1] eqn:E. inv_done Ho. inv_rel.
      eapply back_select_once in E as (b0 & h2 & s0 & [v G1] & G2 & G3 & G4); [|eassumption..].
      exists (OSelectOnce direct (inl m) b0), h2, s0. split_and!; [by econstructor|done..|].
      cbn [build_op]. by rewrite G4.
    + inv_done Ho. inv_rel. destruct (once_total b) as [b0 [v Hb]], (rel_total s) as [s0 Hs].
      exists (OSelectOnce direct (inr e) b0), h0, s0. split_and!; [by econstructor|done..].
  - destruct sel as [m|e]; inv_done Ho; inv_rel.
    + eexists (OSubselect _ (inl m) _), _, _. split_and!; [by constructor|eassumption..|done].
    + destruct (many_total b) as [b0 Hb], (rel_total s) as [s0 Hs].
      exists (OSubselect direct (inr e) b0), h0, s0. split_and!; [by constructor|done..].
  - destruct sel as [m|e]; inv_done Ho; inv_rel.
    + match goal with H : rel_once _ _ |- _ => destruct H as [v Hv] end.
      eexists (OSubselectOnce _ (inl m) _), _, _. split_and!; [by econstructor|eassumption..|done].
    + destruct (once_total b) as [b0 [v Hb]], (rel_total s) as [s0 Hs].
      exists (OSubselectOnce direct (inr e) b0), h0, s0. split_and!; [by econstructor|done..].
Qed.

Lemma back_build : forall p h w s o0, rel_out rel (wbuild p (h, w) s) o0 ->
  exists p0 h0 s0, Possible N p p0 /\ rel_heap h h0 /\ rel s s0 /\ build p0 h0 s0 = o0.
Proof.
  intros p h w s o0 Ho.
  assert (exists c h0 s0, PossibleOp N (WApply p) c /\ rel_heap h h0 /\ rel s s0 /\
                          build_op c h0 s0 = o0) as (c & h0 & s0 & H1 & H2 & H3 & H4).
  { apply (back_build_op (WApply p) h w s). cbn [wbuild_op]. fold wbuild_fix.
    by rewrite wbuild_fix_eq. }
  inversion H1 as [? p0 H5| | | | | | | | | | | | | | | | | | | | | | | | | | | | | |]; subst.
  exists p0, h0, s0. split_and!; [done..|].
  by rewrite <- build_fix_eq.
Qed.
Lemma back_run_builder b h w s o0 : rel_out rel (run_builder b (h, w) s) o0 ->
  exists p0 h0 s0, Possible N (snd (b w)) p0 /\ rel_heap h h0 /\ rel s s0 /\ build p0 h0 s0 = o0.
Proof.
  unfold run_builder. cbn [fst snd]. destruct (b w) as [w' p]. intros Ho.
  by apply back_build in Ho.
Qed.
Lemma back_build_content b h w s o0 : rel_out rel (wbuild_content b (h, w) s) o0 ->
  exists b0 h0 s0, rel_cb b b0 /\ rel_heap h h0 /\ rel s s0 /\ build_content b0 h0 s0 = o0.
Proof.
  intros Ho. destruct b as [b| |n|n|n|direct m b|direct m b|i]; cbn [wbuild_content] in Ho.
  - apply back_run_builder in Ho as (p0 & h0 & s0 & H1 & H2 & H3 & H4).
    exists (CBUser p0), h0, s0. split_and!; [constructor; by exists w|done..].
  - inv_done Ho. inv_rel. eexists CBRemove, _, _. split_and!; [constructor|eassumption..|done].
  - inv_done Ho. inversion Ht; subst. inv_rel.
    eexists (CBReplace _), _, _. split_and!; [by constructor|eassumption..|done].
  - inv_done Ho. inversion Ht; subst.
    eexists (CBAppend _), _, _. split_and!; [by constructor|eassumption..|done].
  - inv_done Ho. inversion Ht; subst.
    eexists (CBPrepend _), _, _. split_and!; [by constructor|eassumption..|done].
  - destruct (wselect_new (h, w) s m b direct) as [[h1 w1] s1] eqn:E. inv_done Ho.
    eapply back_select in E as (b0 & h2 & s0 & G1 & G2 & G3 & G4); [|eassumption..].
    exists (CBSelect direct m b0), h2, s0. split_and!; [by constructor|done..|].
    cbn [build_content]. by rewrite G4.
  - destruct (wselect_once_new (h, w) s m b direct) as [[h1 w1] s1] eqn:E. inv_done Ho.
    eapply back_select_once in E as (b0 & h2 & s0 & G1 & G2 & G3 & G4); [|eassumption..].
    exists (CBSelectOnce direct m b0), h2, s0. split_and!; [by constructor|done..|].
    cbn [build_content]. by rewrite G4.
  - inv_done Ho. inversion Ht; subst.
    eexists (CBRepeat _), _, _. split_and!; [by constructor|eassumption..|done].
Qed.

(** ** Running, backwards *)

Definition Back (fw : wheap W -> wstrm W -> wstep_out W) (f : heap -> strm -> step_out) : Prop :=
  forall h w s o0, rel_out rel_res (fw (h, w) s) o0 ->
    exists h0 s0, rel_heap h h0 /\ rel s s0 /\ eqo eqr (f h0 s0) o0.
Definition Cong (f : heap -> strm -> step_out) : Prop :=
  forall h h' s s', eqh h h' -> eqv s s' -> eqo eqr (f h s) (f h' s').

Lemma eqo_t o1 o2 o3 : eqo (A := strm * stream_result) eqr o1 o2 -> eqo eqr o2 o3 -> eqo eqr o1 o3.
Proof. apply eqo_trans. intros a b c. apply eqr_trans. Qed.

(** [x]: what the continuation has besides the result *)
Lemma back_on_ok {X} (RX : X -> Prop) fw f h w s dead k dead0 k0 o0 :
  Back fw f ->
  rel_out rel_res (won_ok (fw (h, w) s) dead k) o0 ->
  (exists x, RX x) ->
  (forall s1 t0, rel (dead s1) t0 ->
     exists x s10, RX x /\ rel s1 s10 /\ dead0 x s10 = t0) ->
  (forall h1 w1 s1 r o0, rel_out rel_res (k (h1, w1) s1 r) o0 ->
     exists x h10 s10, RX x /\ rel_heap h1 h10 /\ rel s1 s10 /\ eqo eqr (k0 x h10 s10 r) o0) ->
  (forall x s s', eqv s s' -> eqv (dead0 x s) (dead0 x s')) ->
  (forall x r, Cong (fun h s => k0 x h s r)) ->
  exists x h0 s0, RX x /\ rel_heap h h0 /\ rel s s0 /\
    eqo eqr (on_ok (f h0 s0) (dead0 x) (k0 x)) o0.
Proof.
  intros B Ho [x1 Hx1] Hd Hk Cd Ck. specialize (B h w s).
  destruct (fw (h, w) s) as [| |[h1 w1] [s1 [r|e]]]; cbn in Ho.
  - inversion Ho; subst. destruct (B OutOfFuel) as (h0 & s0 & H1 & H2 & H3); [constructor|].
    exists x1, h0, s0. split_and!; [done..|]. inversion H3. cbn. constructor.
  - inversion Ho; subst. destruct (B Panicked) as (h0 & s0 & H1 & H2 & H3); [constructor|].
    exists x1, h0, s0. split_and!; [done..|]. inversion H3. cbn. constructor.
  - apply Hk in Ho as (x & h10 & s10 & G1 & G2 & G3 & G4).
    destruct (B (Done h10 (s10, inl r))) as (h0 & s0 & H1 & H2 & H3); [by repeat constructor|].
    exists x, h0, s0. split_and!; [done..|].
    inversion H3 as [| |? ? [s' r'] ? Hh [Hs Hr]]; subst. cbn in Hs, Hr. subst r'. cbn.
    eapply eqo_t; [by apply Ck|done].
  - inversion Ho as [| |? ? h10 ? [t0 r0] Hh [Ht Hr]]; subst. cbn in Ht, Hr. subst r0.
    apply Hd in Ht as (x & s10 & G1 & G2 & <-).
    destruct (B (Done h10 (s10, inr e))) as (h0 & s0 & H1 & H2 & H3); [by repeat constructor|].
    exists x, h0, s0. split_and!; [done..|].
    inversion H3 as [| |? ? [s' r'] ? Hh' [Hs Hr]]; subst. cbn in Hs, Hr. subst r'. cbn.
    constructor; [done|]. split; cbn; [by apply Cd|done].
Qed.
(** without anything else *)
Lemma back_on_ok1 fw f h w s dead k dead0 k0 o0 :
  Back fw f ->
  rel_out rel_res (won_ok (fw (h, w) s) dead k) o0 ->
  (forall s1 t0, rel (dead s1) t0 -> exists s10, rel s1 s10 /\ dead0 s10 = t0) ->
  (forall h1 w1 s1 r o0, rel_out rel_res (k (h1, w1) s1 r) o0 ->
     exists h10 s10, rel_heap h1 h10 /\ rel s1 s10 /\ eqo eqr (k0 h10 s10 r) o0) ->
  (forall s s', eqv s s' -> eqv (dead0 s) (dead0 s')) ->
  (forall r, Cong (fun h s => k0 h s r)) ->
  exists h0 s0, rel_heap h h0 /\ rel s s0 /\ eqo eqr (on_ok (f h0 s0) dead0 k0) o0.
Proof.
  intros B Ho Hd Hk Cd Ck.
  destruct (back_on_ok (fun _ : unit => True) fw f h w s dead k (fun _ => dead0) (fun _ => k0) o0)
    as (_ & h0 & s0 & _ & H); eauto.
  - by exists tt.
  - intros s1 t0 H. destruct (Hd s1 t0 H) as (s10 & ?). exists tt. eauto.
  - intros h1 w1 s1 r o1 H. destruct (Hk _ _ _ _ _ H) as (h10 & s10 & ?). exists tt. eauto.
Qed.
Lemma back_pass fw f h w s dead cont dead0 cont0 o0 :
  Back fw f ->
  rel_out rel_res (wpassthrough (fw (h, w) s) dead cont) o0 ->
  (forall t0, rel dead t0 -> dead0 = t0) ->
  (forall s1 t0, rel (cont s1) t0 -> exists s10, rel s1 s10 /\ cont0 s10 = t0) ->
  (forall s s', eqv s s' -> eqv (cont0 s) (cont0 s')) ->
  exists h0 s0, rel_heap h h0 /\ rel s s0 /\ eqo eqr (passthrough (f h0 s0) dead0 cont0) o0.
Proof.
  intros B Ho Hd Hk Ck. unfold passthrough.
  eapply back_on_ok1; [done|exact Ho|..].
  - intros s1 t0 H. destruct (rel_total s1) as [s10 ?]. eauto.
  - intros h1 w1 s1 [ev|] o1 H; inversion H as [| |? ? h10 ? [t0 r0] Hh [Ht Hr]]; subst;
      cbn in Ht, Hr; subst r0.
    + destruct (Hk _ _ Ht) as (s10 & ? & <-). exists h10, s10. split_and!; [done..|]. apply eqo_refl.
    + destruct (rel_total s1) as [s10 ?]. rewrite (Hd _ Ht). exists h10, s10.
      split_and!; [done..|]. apply eqo_refl.
  - intros. apply eqv_refl.
  - intros [ev|] h1 h2 s1 s2 Hh Hs; [apply eqo_emit|apply eqo_finish]; auto. apply eqv_refl.
Qed.

Lemma back_cell fw f h w l o0 : Back fw f -> Cong f ->
  rel_out rel_res (wwith_cell (h, w) l fw) o0 ->
  exists h0, rel_heap h h0 /\ eqo eqr (with_cell h0 l f) o0.
Proof.
  intros B C Ho. unfold wwith_cell, with_cell in *. cbn [fst snd] in Ho.
  destruct (h !! l) as [[s|]|] eqn:El.
  - specialize (B (<[l := WBorrowed]> h) w s).
    (* going back from the heap inside to the heap outside *)
    assert (forall o1, rel_out rel_res (fw (<[l:=WBorrowed]> h, w) s) o1 ->
      exists h0 s0, rel_heap h h0 /\ h0 !! l = Some (Cell s0) /\
        eqo eqr (f (<[l := Borrowed]> h0) s0) o1) as Hin.
    { intros o1 H1. apply B in H1 as (h0 & s0 & H1 & H2 & H3).
      pose proof (H1 l) as Hl. rewrite lookup_insert in Hl. inversion Hl as [|E|]; subst.
      exists (<[l := Cell s0]> h0), s0. rewrite lookup_insert, insert_insert. split_and!; [|done|].
      - intros k. destruct (decide (l = k)) as [->|Hn].
        + rewrite El, lookup_insert. by constructor.
        + specialize (H1 k). rewrite lookup_insert_ne in H1 by done. by rewrite lookup_insert_ne.
      - by rewrite insert_id. }
    destruct (fw (<[l:=WBorrowed]> h, w) s) as [| |[h1 w1] [s1 r]]; cbn in Ho.
    + inversion Ho; subst. destruct (Hin OutOfFuel) as (h0 & s0 & H1 & H2 & H3); [constructor|].
      exists h0. split; [done|]. rewrite H2. inversion H3. constructor.
    + inversion Ho; subst. destruct (Hin Panicked) as (h0 & s0 & H1 & H2 & H3); [constructor|].
      exists h0. split; [done|]. rewrite H2. inversion H3. constructor.
    + inversion Ho as [| |? ? h10 ? [t0 r0] Hh [Ht Hr]]; subst. cbn in Ht, Hr. subst r0.
      inversion Ht; subst.
      pose proof (Hh l) as Hl. rewrite lookup_insert in Hl. inversion Hl as [| |? s10 Hs E E']; subst.
      destruct (cell_total (h1 !! l)) as [c10 Hc].
      assert (exists h10' : heap, h10' !! l = c10 /\ forall k, l <> k -> h10' !! k = h10 !! k)
        as (h10' & E1 & E2).
      { exists (partial_alter (fun _ => c10) l h10). split; [apply lookup_partial_alter|].
        intros. by apply lookup_partial_alter_ne. }
      destruct (Hin (Done h10' (s10, r))) as (h0 & s0 & H1 & H2 & H3).
      { constructor; [|by split]. intros k. destruct (decide (l = k)) as [->|Hn].
        - by rewrite E1.
        - specialize (Hh k). rewrite lookup_insert_ne in Hh by done.
          by rewrite E2. }
      exists h0. split; [done|]. rewrite H2.
      inversion H3 as [| |? ? [s' r'] ? Hh' [Hs' Hr]]; subst. cbn in Hs', Hr. subst r'. cbn.
      constructor; [|split; [constructor|done]]. intros k. destruct (decide (l = k)) as [->|Hn].
      * rewrite lookup_insert, <- E'. by constructor.
      * rewrite lookup_insert_ne by done. specialize (Hh' k). by rewrite E2 in Hh'.
  - inversion Ho; subst. destruct (heap_total h) as [h0 Hh]. exists h0. split; [done|].
    pose proof (Hh l) as Hl. rewrite El in Hl. inversion Hl. constructor.
  - inversion Ho; subst. destruct (heap_total h) as [h0 Hh]. exists h0. split; [done|].
    pose proof (Hh l) as Hl. rewrite El in Hl. inversion Hl. constructor.
Qed.

Record BackE (ew : wengine W) (e : engine) : Prop :=
  { b_ne : Back (wne ew) (ne e);
    b_sk : Back (wsk ew) (sk e);
    b_dr : Back (wdr ew) (dr e);
    b_co : forall h w s acc o0, rel_out (=) (wco ew (h, w) s acc) o0 ->
             exists h0 s0, rel_heap h h0 /\ rel s s0 /\ eqo (=) (co e h0 s0 acc) o0 }.

Lemma back_peek ew e : BackE ew e -> EqE e -> Back (wpeek ew) (peek e).
Proof.
  intros B He h w s o0 Ho.
  assert (o0 = Panicked -> wpeek ew (h, w) s = WPanicked ->
    (forall h0 s0, rel s s0 -> peek e h0 s0 = Panicked) ->
    exists h0 s0, rel_heap h h0 /\ rel s s0 /\ eqo eqr (peek e h0 s0) o0) as Hp.
  { intros -> _ H. destruct (heap_total h) as [h0 ?], (rel_total s) as [s0 Hs].
    exists h0, s0. split_and!; [done..|]. rewrite H by done. constructor. }
  destruct s as [ | | | | | | |s [ev|]| | | | | | | | | | | |]; cbn [wpeek] in Ho;
    try (apply Hp; [by inversion Ho|done|intros h0 s0 H; inversion H; done]).
  - inversion Ho as [| |? ? h10 ? [t0 r0] Hh [Ht Hr]]; subst. cbn in Ht, Hr. subst r0.
    inversion Ht; subst. eexists h10, _. split_and!; [done..|]. apply eqo_refl.
  - assert (exists h0 s0, rel_heap h h0 /\ rel s s0 /\
      eqo eqr (on_ok (sk e h0 s0) (fun s => SPeek s None) (fun h s r => Done h (SPeek s r, inl r))) o0)
      as (h0 & s0 & H1 & H2 & H3).
    { eapply back_on_ok1; [apply (b_sk _ _ B)|exact Ho|..].
      - intros s1 t0 H. inversion H; subst. eauto.
      - intros h1 w1 s1 r o1 H. inversion H as [| |? ? h10 ? [t0 r0] Hh [Ht Hr]]; subst.
        cbn in Ht, Hr. subst r0. inversion Ht; subst. eexists h10, _. split_and!; [done..|].
        apply eqo_refl.
      - intros. by constructor.
      - intros r h1 h2 s1 s2 Hh Hs. constructor; [done|]. split; [by constructor|done]. }
    exists h0, (SPeek s0 None). split_and!; [done|by constructor|done].
Qed.

(** the end of a step *)
Ltac res Ho :=
  let h10 := fresh "h10" in let t0 := fresh "t0" in let r0 := fresh "r0" in
  let Hh := fresh "Hh" in let Ht := fresh "Ht" in let Hr := fresh "Hr" in
  unfold wemit, wfinish, wfail in Ho;
  inversion Ho as [| |? ? h10 ? [t0 r0] Hh [Ht Hr]]; subst; clear Ho;
  cbn in Ht, Hr; subst r0.
Ltac tot :=
  repeat match goal with
  | s : wstrm W |- _ =>
      lazymatch goal with
      | _ : rel s _ |- _ => fail
      | _ => let s0 := fresh "s0" in let H := fresh "H" in destruct (rel_total s) as [s0 H]
      end
  end.
Ltac cg := intros; first [apply eqv_refl | es].

Definition pass_ne ew e (B : BackE ew e) h w s dead cont dead0 cont0 o0 (S : strm -> strm) s' :
  rel_out rel_res (wpassthrough (wne ew (h, w) s) dead cont) o0 ->
  (forall s0, rel s s0 -> rel s' (S s0)) ->
  (forall h0 s0, rel s s0 -> ne_body e h0 (S s0) = passthrough (ne e h0 s0) dead0 cont0) ->
  (forall t0, rel dead t0 -> dead0 = t0) ->
  (forall s1 t0, rel (cont s1) t0 -> exists s10, rel s1 s10 /\ cont0 s10 = t0) ->
  (forall s s', eqv s s' -> eqv (cont0 s) (cont0 s')) ->
  exists h0 s0, rel_heap h h0 /\ rel s' s0 /\ eqo eqr (ne_body e h0 s0) o0.
Proof.
  intros Ho HS HB Hd Hc Ck.
  destruct (back_pass (wne ew) (ne e) h w s dead cont dead0 cont0 o0) as (h0 & s0 & H1 & H2 & H3);
    [apply (b_ne _ _ B)|done..|].
  exists h0, (S s0). split_and!; [done|auto|]. by rewrite HB.
Qed.
Definition pass_sk ew e (B : BackE ew e) h w s dead cont dead0 cont0 o0 (S : strm -> strm) s' :
  rel_out rel_res (wpassthrough (wsk ew (h, w) s) dead cont) o0 ->
  (forall s0, rel s s0 -> rel s' (S s0)) ->
  (forall h0 s0, rel s s0 -> ne_body e h0 (S s0) = passthrough (sk e h0 s0) dead0 cont0) ->
  (forall t0, rel dead t0 -> dead0 = t0) ->
  (forall s1 t0, rel (cont s1) t0 -> exists s10, rel s1 s10 /\ cont0 s10 = t0) ->
  (forall s s', eqv s s' -> eqv (cont0 s) (cont0 s')) ->
  exists h0 s0, rel_heap h h0 /\ rel s' s0 /\ eqo eqr (ne_body e h0 s0) o0.
Proof.
  intros Ho HS HB Hd Hc Ck.
  destruct (back_pass (wsk ew) (sk e) h w s dead cont dead0 cont0 o0) as (h0 & s0 & H1 & H2 & H3);
    [apply (b_sk _ _ B)|done..|].
  exists h0, (S s0). split_and!; [done|auto|]. by rewrite HB.
Qed.
Ltac pass :=
  [> intros s0 Hs0; econstructor; exact Hs0
   | intros h0 s0 Hs0; reflexivity
   | intros t0 Ht; inversion Ht; reflexivity
   | intros u t0 Ht; inversion Ht; subst; tot; eexists; split; [eassumption|reflexivity]
   | intros; es ].

Lemma inv_active l m b calls direct level s t :
  rel (WSSelect l m b calls direct (Some (WSelActive level s))) t ->
  exists b0 s0, t = SSelect l m b0 calls direct (Some (SelActive level s0)) /\
    rel_many b b0 /\ rel s s0.
Proof. intros H. inversion H; subst. eauto. Qed.
Lemma inv_roe s t : rel (WSRepeatOrElse (Some (WROERepeat s))) t ->
  exists s0, t = SRepeatOrElse (Some (ROERepeat s0)) /\ rel s s0.
Proof. intros H. inversion H; subst. eauto. Qed.
Lemma ok1 fw f e h w s dead k dead0 k0 o0 (S : strm -> strm) s' :
  Back fw f ->
  rel_out rel_res (won_ok (fw (h, w) s) dead k) o0 ->
  (forall s0, rel s s0 -> rel s' (S s0)) ->
  (forall h0 s0, rel s s0 -> ne_body e h0 (S s0) = on_ok (f h0 s0) dead0 k0) ->
  (forall s1 t0, rel (dead s1) t0 -> exists s10, rel s1 s10 /\ dead0 s10 = t0) ->
  (forall h1 w1 s1 r o0, rel_out rel_res (k (h1, w1) s1 r) o0 ->
     exists h10 s10, rel_heap h1 h10 /\ rel s1 s10 /\ eqo eqr (k0 h10 s10 r) o0) ->
  (forall s s', eqv s s' -> eqv (dead0 s) (dead0 s')) ->
  (forall r, Cong (fun h s => k0 h s r)) ->
  exists h0 s0, rel_heap h h0 /\ rel s' s0 /\ eqo eqr (ne_body e h0 s0) o0.
Proof.
  intros B Ho HS HB Hd Hk Cd Ck.
  destruct (back_on_ok1 fw f h w s dead k dead0 k0 o0) as (h0 & s0 & H1 & H2 & H3); [done..|].
  exists h0, (S s0). split_and!; [done|auto|]. by rewrite HB.
Qed.
Lemma okx {X} (RX : X -> Prop) fw f e h w s dead k dead0 k0 o0 (S : X -> strm -> strm) s' :
  Back fw f ->
  rel_out rel_res (won_ok (fw (h, w) s) dead k) o0 ->
  (forall x s0, RX x -> rel s s0 -> rel s' (S x s0)) ->
  (forall x h0 s0, RX x -> rel s s0 -> ne_body e h0 (S x s0) = on_ok (f h0 s0) (dead0 x) (k0 x)) ->
  (exists x, RX x) ->
  (forall s1 t0, rel (dead s1) t0 -> exists x s10, RX x /\ rel s1 s10 /\ dead0 x s10 = t0) ->
  (forall h1 w1 s1 r o0, rel_out rel_res (k (h1, w1) s1 r) o0 ->
     exists x h10 s10, RX x /\ rel_heap h1 h10 /\ rel s1 s10 /\ eqo eqr (k0 x h10 s10 r) o0) ->
  (forall x s s', eqv s s' -> eqv (dead0 x s) (dead0 x s')) ->
  (forall x r, Cong (fun h s => k0 x h s r)) ->
  exists h0 s0, rel_heap h h0 /\ rel s' s0 /\ eqo eqr (ne_body e h0 s0) o0.
Proof.
  intros B Ho HS HB Hx Hd Hk Cd Ck.
  destruct (back_on_ok RX fw f h w s dead k dead0 k0 o0) as (x & h0 & s0 & H0 & H1 & H2 & H3);
    [done..|].
  exists h0, (S x s0). split_and!; [done|auto|]. by rewrite HB.
Qed.
Ltac inv_shared := repeat match goal with H : rel (WSShared _) _ |- _ => inversion H; subst; clear H end.
Ltac leaf H :=
  res H; inv_rel; tot; eexists _, _; split_and!; [eassumption|eassumption|apply eqo_refl].
Ltac leafx H :=
  res H; inv_rel; tot; eexists _, _, _; split_and!;
  [eassumption|eassumption|eassumption|apply eqo_refl].
Ltac dead1 := intros ? ? HH; inversion HH; subst; tot; eexists; split; [eassumption|reflexivity].

Lemma back_co {X} (RX : X -> Prop) ew e (B : BackE ew e) h w s k k0 o0 :
  rel_out rel_res (wbind (wco ew (h, w) s []) k) o0 ->
  (exists x, RX x) ->
  (forall h1 w1 r o0, rel_out rel_res (k (h1, w1) r) o0 ->
     exists x h10, RX x /\ rel_heap h1 h10 /\ eqo eqr (k0 x h10 r) o0) ->
  (forall x r h h', eqh h h' -> eqo eqr (k0 x h r) (k0 x h' r)) ->
  exists x h0 s0, RX x /\ rel_heap h h0 /\ rel s s0 /\ eqo eqr (obind (co e h0 s0 []) (k0 x)) o0.
Proof.
  intros Ho [x1 Hx1] Hk Ck. pose proof (fun o1 => b_co _ _ B h w s [] o1) as HB.
  destruct (wco ew (h, w) s []) as [| |[h1 w1] r]; cbn in Ho.
  - inversion Ho; subst. destruct (HB OutOfFuel) as (h0 & s0 & H1 & H2 & H3); [constructor|].
    exists x1, h0, s0. split_and!; [done..|]. inversion H3. constructor.
  - inversion Ho; subst. destruct (HB Panicked) as (h0 & s0 & H1 & H2 & H3); [constructor|].
    exists x1, h0, s0. split_and!; [done..|]. inversion H3. constructor.
  - apply Hk in Ho as (x & h10 & G1 & G2 & G3).
    destruct (HB (Done h10 r)) as (h0 & s0 & H1 & H2 & H3); [by constructor|].
    exists x, h0, s0. split_and!; [done..|]. inversion H3; subst. cbn.
    eapply eqo_t; [by apply Ck|done].
Qed.

Lemma back_ne_body ew e : BackE ew e -> EqE e -> Back (wne_body ew) (ne_body e).
Proof.
  intros B He h w s o0 Ho.
  destruct s as
    [evs i|evs stop|[g|]|d|l|[[[s|err]|s]|]|[[s|s|tag]|]|s [ev|]|[[s1 s2|s2]|]|s|[[ev s|tag s level]|]
    |l m b calls direct [[level|level s]|]|l [[m b direct level|s|]|]
    |[[s cb|l s tag|l tag]|]|[[[tag l] level]|]|first s|[[s f|evs i]|]
    |[[s i|t i|t s i]|]|[[c s it b|s|s]|]|[[s c|s]|]]; cbn [wne_body] in Ho.
  (* steps that only emit, end or fail *)
  all: try (res Ho; inv_rel; tot; eexists h10, _; split_and!;
            [eassumption|econstructor; eassumption|apply eqo_refl]; fail).
  (* steps that pass events on *)
  all: try (by eapply (pass_ne _ _ B); [exact Ho|..]; pass).
  all: try (by eapply (pass_sk _ _ B); [exact Ho|..]; pass).
  - destruct (nth_error evs i) eqn:E; res Ho; inv_rel; eexists h10, _;
      (split_and!; [done|constructor|]); cbn [ne_body]; rewrite E; apply eqo_refl.
  - destruct evs, stop; res Ho; inv_rel; eexists h10, _;
      (split_and!; [done|constructor|]); apply eqo_refl.
  - cbn [snd fst] in Ho. destruct (g 0 w) as [w' [[ev|]|err]] eqn:Eg; res Ho; inv_rel.
    + exists h10, (SUser (ev :: evs) stop). split_and!; [done| |apply eqo_refl].
      constructor. eapply PE_event; [by rewrite Eg|]. apply (events_less N); [lia|done].
    + exists h10, (SUser [] None). split_and!; [done| |apply eqo_refl].
      constructor. apply (PE_end N g w). by rewrite Eg.
    + exists h10, (SUser [] (Some err)). split_and!; [done| |apply eqo_refl].
      constructor. apply (PE_fail N g w). by rewrite Eg.
  - destruct d; res Ho; inv_rel; eexists h10, _;
      (split_and!; [done|constructor|]); apply eqo_refl.
  - apply (back_cell _ (ne e)) in Ho as (h0 & H1 & H2); [|apply (b_ne _ _ B)|exact (q_ne e He)].
    exists h0, (SShared l). split_and!; [done|constructor|done].
  - eapply (ok1 _ _ e _ _ _ _ _ _ _ _ (fun s0 => SExpand (Some (XStart s0))) _ (b_sk _ _ B) Ho).
    + intros. by constructor.
    + intros. reflexivity.
    + dead1.
    + intros h1 w1 s1 [[]|] o1 H; leaf H.
    + cg.
    + intros [[]|] h1 h2 s1 s2 Hh Hs; step.
  - eapply (ok1 _ _ e _ _ _ _ _ _ _ _ (fun s0 => SPeek s0 None) _ (b_sk _ _ B) Ho).
    + intros. by constructor.
    + intros. reflexivity.
    + dead1.
    + intros h1 w1 s1 r o1 H; leaf H.
    + cg.
    + intros r h1 h2 s3 s4 Hh Hs. constructor; [done|]. split; [es|done].
  - eapply (okx (rel s2) _ _ e _ _ _ _ _ _ _ _ (fun t s0 => SCombine (Some (CmbFirst s0 t))) _
              (b_sk _ _ B) Ho).
    + intros. by constructor.
    + intros. reflexivity.
    + apply rel_total.
    + intros ? ? HH; inversion HH; subst; tot. eexists _, _. split_and!; [eassumption..|done].
    + intros h1 w1 s3 [ev|] o1 H; leafx H.
    + cg.
    + intros x [ev|] h1 h2 s3 s4 Hh Hs; step.
  - apply (b_dr _ _ B) in Ho as (h0 & s0 & H1 & H2 & H3).
    exists h0, (SRemove s0). split_and!; [done|by constructor|done].
  - destruct ev; res Ho; inv_rel; tot; eexists h10, _;
      (split_and!; [done|econstructor; eassumption|]); apply eqo_refl.
  - eapply (ok1 _ _ e _ _ _ _ _ _ _ _ (fun s0 => SSingle (Some (SEUntilClose tag s0 level))) _
              (b_ne _ _ B) Ho).
    + intros. by constructor.
    + intros. reflexivity.
    + dead1.
    + intros h1 w1 s1 [ev|] o1 H; [|leaf H]. destruct (is_opening_tag_for ev tag); [leaf H|].
      destruct (is_closing_tag_for ev tag); [destruct level|]; leaf H.
    + cg.
    + intros [ev|] h1 h2 s3 s4 Hh Hs; [|step]. destruct (is_opening_tag_for ev tag); [step|].
      destruct (is_closing_tag_for ev tag); [destruct level|]; step.
  - eapply (okx (rel_many b) _ _ e _ _ _ _ _ _ _ _
              (fun b0 _ => SSelect l m b0 calls direct (Some (SelScanning level))) _
              (b_sk _ _ B) Ho).
    + intros. by constructor.
    + intros x h0 s0 _ Hs. inversion Hs; subst. reflexivity.
    + apply many_total.
    + intros ? ? HH; inversion HH; subst; tot. eexists _, _. split_and!; [eassumption..|done].
    + intros h1 w1 s1 [ev|] o1 H; [|leafx H].
      destruct (include direct level && matches m ev) eqn:Ei.
      * pose proof (fun o2 => back_run_builder (b calls) h1 w1
                                (WSSingle (Some (WSEStart ev (WSShared l)))) o2) as HB.
        destruct (run_builder (b calls) (h1, w1) _) as [| |[h2 w2] s2]; cbn in H.
        -- inversion H; subst. destruct (HB OutOfFuel) as (p0 & h0 & s0 & G1 & G2 & G3 & G4); [constructor|].
           inv_rel. destruct (many_total b) as [b0 Hb].
           exists (fun i => if Nat.eqb i calls then p0 else b0 i), h0.
           destruct (rel_total s1) as [s10 Hs]. exists s10. split_and!; [|done..|].
           ++ intros k. destruct (Nat.eqb_spec k calls) as [->|]; [by exists w1|apply Hb].
           ++ rewrite Nat.eqb_refl, G4. constructor.
        -- inversion H; subst. destruct (HB Panicked) as (p0 & h0 & s0 & G1 & G2 & G3 & G4); [constructor|].
           inv_rel. destruct (many_total b) as [b0 Hb].
           exists (fun i => if Nat.eqb i calls then p0 else b0 i), h0.
           destruct (rel_total s1) as [s10 Hs]. exists s10. split_and!; [|done..|].
           ++ intros k. destruct (Nat.eqb_spec k calls) as [->|]; [by exists w1|apply Hb].
           ++ rewrite Nat.eqb_refl, G4. constructor.
        -- res H. apply inv_active in Ht as (b0 & s20 & -> & Hb & Hs2).
           destruct (HB (Done h10 s20)) as (p0 & h0 & s0 & G1 & G2 & G3 & G4); [by constructor|].
           inv_rel. exists (fun i => if Nat.eqb i calls then p0 else b0 i), h0.
           destruct (rel_total s1) as [s10 Hs]. exists s10. split_and!; [|done..|].
           ++ intros k. destruct (Nat.eqb_spec k calls) as [->|]; [by exists w1|apply Hb].
           ++ rewrite Nat.eqb_refl, G4. cbn. apply eqo_emit; [apply eqh_refl|].
              constructor; [|apply eqv_refl]. intros i Hi.
              destruct (Nat.eqb_spec i calls); [lia|done].
      * destruct (adjust level ev); leafx H.
    + cg.
    + intros x [ev|] h1 h2 s3 s4 Hh Hs; [|step].
      destruct (include direct level && matches m ev).
      * eapply eqo_bind; [apply eqo_build; [done|es]|]. intros. step.
      * destruct (adjust level ev); step.
  - eapply (okx (rel_many b) _ _ e _ _ _ _ _ _ _ _
              (fun b0 s0 => SSelect l m b0 calls direct (Some (SelActive level s0))) _
              (b_ne _ _ B) Ho).
    + intros. by constructor.
    + intros. reflexivity.
    + apply many_total.
    + intros ? ? HH; inversion HH; subst; tot. eexists _, _. split_and!; [eassumption..|done].
    + intros h1 w1 s1 [ev|] o1 H; leafx H.
    + cg.
    + intros x [ev|] h1 h2 s3 s4 Hh Hs; step.
  - eapply (okx (rel_once b) _ _ e _ _ _ _ _ _ _ _
              (fun p0 _ => SSelectOnce l (Some (SelOScanning m p0 direct level))) _
              (b_sk _ _ B) Ho).
    + intros. by constructor.
    + intros x h0 s0 _ Hs. inversion Hs; subst. reflexivity.
    + apply once_total.
    + intros ? ? HH; inversion HH; subst; tot. destruct (once_total b) as [p0 Hp].
      eexists _, _. split_and!; [eassumption..|done].
    + intros h1 w1 s1 [ev|] o1 H; [|destruct (once_total b) as [p0 Hp]; leafx H].
      destruct (include direct level && matches m ev) eqn:Ei.
      * pose proof (fun o2 => back_run_builder b h1 w1
                                (WSSingle (Some (WSEStart ev (WSShared l)))) o2) as HB.
        destruct (run_builder b (h1, w1) _) as [| |[h2 w2] s2]; cbn in H.
        -- inversion H; subst. destruct (HB OutOfFuel) as (p0 & h0 & s0 & G1 & G2 & G3 & G4); [constructor|].
           inv_rel. destruct (rel_total s1) as [s10 Hs]. exists p0, h0, s10.
           split_and!; [by exists w1|done..|]. rewrite G4. constructor.
        -- inversion H; subst. destruct (HB Panicked) as (p0 & h0 & s0 & G1 & G2 & G3 & G4); [constructor|].
           inv_rel. destruct (rel_total s1) as [s10 Hs]. exists p0, h0, s10.
           split_and!; [by exists w1|done..|]. rewrite G4. constructor.
        -- res H. inversion Ht; subst.
           destruct (HB (Done h10 s')) as (p0 & h0 & s0 & G1 & G2 & G3 & G4); [by constructor|].
           inv_rel. destruct (rel_total s1) as [s10 Hs]. exists p0, h0, s10.
           split_and!; [by exists w1|done..|]. rewrite G4. cbn. apply eqo_refl.
      * destruct (adjust level ev); [leafx H|destruct (once_total b) as [p0 Hp]; leafx H].
    + cg.
    + intros x [ev|] h1 h2 s3 s4 Hh Hs; [|step].
      destruct (include direct level && matches m ev).
      * eapply eqo_bind; [apply eqo_build; [done|es]|]. intros. step.
      * destruct (adjust level ev); step.
  - eapply (ok1 _ _ e _ _ _ _ _ _ _ _ (fun s0 => SSelectOnce l (Some (SelOActive s0))) _
              (b_ne _ _ B) Ho).
    + intros. by constructor.
    + intros. reflexivity.
    + dead1.
    + intros h1 w1 s1 [ev|] o1 H; leaf H.
    + cg.
    + intros [ev|] h1 h2 s3 s4 Hh Hs; step.
  - eapply (pass_ne _ _ B _ _ _ _ _ _ _ _ (fun _ => SSelectOnce l (Some SelOPassthrough))); [exact Ho|..].
    + intros. constructor.
    + intros h0 s0 Hs. inversion Hs; subst. reflexivity.
    + intros t0 Ht. by inversion Ht.
    + intros u t0 Ht. inversion Ht; subst. tot. eauto.
    + cg.
  - eapply (okx (rel_cb cb) _ _ e _ _ _ _ _ _ _ _
              (fun cb0 s0 => match s0 with
                             | SExpand (Some (XStart s0)) => SSelectContent (Some (SCOpen s0 cb0))
                             | s0 => s0
                             end) _ (b_sk _ _ B) Ho).
    + intros x s0 Hx Hs. inversion Hs; subst. by constructor.
    + intros x h0 s0 _ Hs. inversion Hs; subst. reflexivity.
    + apply cb_total.
    + intros ? ? HH; inversion HH; subst; tot. destruct (cb_total cb) as [cb0 Hcb].
      eexists _, _. split_and!; [eassumption..|done].
    + intros h1 w1 s1 [ev|] o1 H; [|destruct (cb_total cb) as [cb0 Hcb]; leafx H].
      destruct ev; try (destruct (cb_total cb) as [cb0 Hcb]; leafx H; fail).
      cbn [fst snd] in H.
      pose proof (fun o2 => back_build_content cb (<[wfresh_loc h1 := WCell (WSPeek s1 None)]> h1) w1
                    (WSCurrentContent (Some (tag, wfresh_loc h1, 0))) o2) as HB.
      destruct (wbuild_content cb _ _) as [| |[h2 w2] s2]; cbn in H.
      * inversion H; subst. destruct (HB OutOfFuel) as (cb0 & h0 & s0 & G1 & G2 & G3 & G4); [constructor|].
        apply heap_uninsert in G2 as (c0 & Hc & Hh & E); [|apply wfresh_none]. inversion Hc; subst.
        inv_rel. eexists cb0, _, _. split_and!; [done|exact Hh|eassumption|].
        cbv zeta. rewrite <- (heap_fresh _ _ Hh), E, G4. constructor.
      * inversion H; subst. destruct (HB Panicked) as (cb0 & h0 & s0 & G1 & G2 & G3 & G4); [constructor|].
        apply heap_uninsert in G2 as (c0 & Hc & Hh & E); [|apply wfresh_none]. inversion Hc; subst.
        inv_rel. eexists cb0, _, _. split_and!; [done|exact Hh|eassumption|].
        cbv zeta. rewrite <- (heap_fresh _ _ Hh), E, G4. constructor.
      * res H. inversion Ht; subst.
        destruct (HB (Done h10 s')) as (cb0 & h0 & s0 & G1 & G2 & G3 & G4); [by constructor|].
        apply heap_uninsert in G2 as (c0 & Hc & Hh2 & E); [|apply wfresh_none]. inversion Hc; subst.
        inv_rel. eexists cb0, _, _. split_and!; [done|exact Hh2|eassumption|].
        cbv zeta. rewrite <- (heap_fresh _ _ Hh2), E, G4. apply eqo_refl.
    + cg.
    + intros x [ev|] h1 h2 s3 s4 Hh Hs; [|step]. destruct ev; try step.
      rewrite <- (eqh_fresh h1 h2 Hh). eapply eqo_bind.
      * apply eqo_build_content; [|es]. apply eqh_insert; [done|]. constructor. es.
      * intros. step.
  - eapply (ok1 _ _ e _ _ _ _ _ _ _ _ (fun s0 => SSelectContent (Some (SCContent l s0 tag))) _
              (b_ne _ _ B) Ho).
    + intros. by constructor.
    + intros. reflexivity.
    + dead1.
    + intros h1 w1 s1 [ev|] o1 H; leaf H.
    + cg.
    + intros [ev|] h1 h2 s3 s4 Hh Hs; step.
  - eapply (ok1 _ _ e _ _ _ _ _ _ _ _ (fun _ => SSelectContent (Some (SCClose l tag))) _
              (b_sk _ _ B) Ho).
    + intros. by constructor.
    + intros h0 s0 Hs. inversion Hs; subst. reflexivity.
    + dead1.
    + intros h1 w1 s1 [[]|] o1 H; try (leaf H; fail). destruct (ident_eqb _ _) eqn:E; leaf H.
    + cg.
    + intros [[]|] h1 h2 s3 s4 Hh Hs; try step. destruct (ident_eqb _ _); step.
  - assert (forall h w o0,
      rel_out rel_res (won_ok (wne ew (h, w) (WSShared l)) (fun _ => WSCurrentContent None) (fun h _ r =>
          match r with
          | None => wfail h (WSCurrentContent None) (missing_close tag)
          | Some ev =>
              match adjust level ev with
              | inl level => wemit h (WSCurrentContent (Some (tag, l, level))) ev
              | inr _ => wfail h (WSCurrentContent None) (missing_close tag)
              end
          end)) o0 ->
      exists h0, rel_heap h h0 /\
        eqo eqr (on_ok (ne e h0 (SShared l)) (fun _ => SCurrentContent None) (fun h _ r =>
          match r with
          | None => fail h (SCurrentContent None) (missing_close tag)
          | Some ev =>
              match adjust level ev with
              | inl level => emit h (SCurrentContent (Some (tag, l, level))) ev
              | inr _ => fail h (SCurrentContent None) (missing_close tag)
              end
          end)) o0) as Hnext.
    { clear Ho. intros k v x0 Hx.
      assert (exists h0 s0, rel_heap k h0 /\ rel (WSShared l) s0 /\
        eqo eqr (on_ok (ne e h0 s0) (fun _ => SCurrentContent None) (fun h _ r =>
          match r with
          | None => fail h (SCurrentContent None) (missing_close tag)
          | Some ev =>
              match adjust level ev with
              | inl level => emit h (SCurrentContent (Some (tag, l, level))) ev
              | inr _ => fail h (SCurrentContent None) (missing_close tag)
              end
          end)) x0) as (h0 & s0 & H1 & H2 & H3).
      { eapply back_on_ok1; [apply (b_ne _ _ B)|exact Hx|..].
        - dead1.
        - intros h1 w1 s1 [ev|] o1 H; [|leaf H]. destruct (adjust level ev); leaf H.
        - cg.
        - intros [ev|] h1 h2 s3 s4 Hh Hs; [|step]. destruct (adjust level ev); step. }
      inversion H2; subst. eauto. }
    cbv zeta in Ho. destruct (negb (Nat.eqb level 0)) eqn:El.
    + apply Hnext in Ho as (h0 & H1 & H2). exists h0, (SCurrentContent (Some (tag, l, level))).
      split_and!; [done|constructor|]. cbn [ne_body]. by rewrite El.
    + eapply (ok1 (fun h _ => wwith_cell h l (wpeek ew)) (fun h _ => with_cell h l (peek e)) e
                _ _ (WSShared l) _ _ _ _ _ (fun _ => SCurrentContent (Some (tag, l, level))) _).
      * intros k v u x0 Hx.
        eapply back_cell in Hx as (h0 & H1 & H2); [|by apply back_peek|].
        2: { intros k1 k2 u1 u2 Hk Hu. by apply eqo_peek. }
        destruct (rel_total u) as [u0 Hu]. eauto.
      * exact Ho.
      * intros. by constructor.
      * intros h0 s0 Hs. cbn [ne_body]. rewrite El. reflexivity.
      * dead1.
      * intros h1 w1 s1 [ev|] o1 H; [|leaf H].
        destruct (is_closing_tag_for ev tag); [leaf H|].
        apply Hnext in H as (h0 & H1 & H2). tot. eauto.
      * cg.
      * intros [ev|] h1 h2 s3 s4 Hh Hs; [|step]. destruct (is_closing_tag_for ev tag); [step|].
        eapply eqo_on_ok; [apply (q_ne e He); [done|es]|intros; es|].
        intros j j' u u' [ev'|] Hj Hu; [|step]. destruct (adjust level ev'); step.
  - pose proof (fun o1 => b_ne _ _ B h w s o1) as HB.
    destruct (wne ew (h, w) s) as [| |[h1 w1] [s1 r]]; cbn in Ho.
    + inversion Ho; subst. destruct (HB OutOfFuel) as (h0 & s0 & H1 & H2 & H3); [constructor|].
      exists h0, (SApplyEither first s0). split_and!; [done|by constructor|].
      cbn [ne_body]. inversion H3. constructor.
    + inversion Ho; subst. destruct (HB Panicked) as (h0 & s0 & H1 & H2 & H3); [constructor|].
      exists h0, (SApplyEither first s0). split_and!; [done|by constructor|].
      cbn [ne_body]. inversion H3. constructor.
    + res Ho. inversion Ht; subst.
      destruct (HB (Done h10 (s', r))) as (h0 & s0 & G1 & G2 & G3); [by repeat constructor|].
      exists h0, (SApplyEither first s0). split_and!; [done|by constructor|].
      cbn [ne_body]. inversion G3 as [| |? ? [s'' r''] ? Hh' [Hs' Hr]]; subst. cbn in Hs', Hr. subst r''.
      cbn. constructor; [done|]. split; [es|done].
  - eapply (back_co (rel_fun f) _ _ B _ _ _ _ (fun f0 h r =>
        match r with
        | inr err => fail h (STemplateApply None) err
        | inl template =>
            match f0 template with
            | inr err => fail h (STemplateApply None) err
            | inl applied => emit h (STemplateApply (Some (TAEmit applied 0))) Noop
            end
        end)) in Ho as (f0 & h0 & s0 & H0 & H1 & H2 & H3).
    + exists h0, (STemplateApply (Some (TACollect s0 f0))).
      split_and!; [done|by constructor|done].
    + apply fun_total.
    + intros h1 w1 [template|err] o1 H.
      * exists (fun evs => snd (f w1 evs)). cbn [fst snd] in H.
        destruct (f w1 template) as [w2 [applied|err]]; res H; inv_rel; exists h10;
          (split_and!; [intros evs; by exists w1|done|]); apply eqo_refl.
      * destruct (fun_total f) as [f0 Hf]. res H. inv_rel. exists f0, h10.
        split_and!; [done..|]. apply eqo_refl.
    + intros f0 [template|err] h1 h2 Hh; [|step]. destruct (f0 template); step.
  - eapply (pass_ne _ _ B _ _ _ _ _ _
              (fun s => match s with
                        | STemplate events index => STemplateApply (Some (TAEmit events index))
                        | s => s
                        end) _ (fun _ => STemplateApply (Some (TAEmit evs i)))); [exact Ho|..].
    + intros. constructor.
    + intros h0 s0 Hs. inversion Hs; subst. reflexivity.
    + intros t0 Ht. by inversion Ht.
    + intros u t0 Ht. destruct u; inversion Ht; subst; eexists; (split; [econstructor; eassumption|done]).
    + intros u u' Hu. inversion Hu; subst; es.
  - eapply (back_co (rel_items i) _ _ B _ _ _ _ (fun bs h r =>
        match r with
        | inr err => fail h (SRepeat None) err
        | inl template => emit h (SRepeat (Some (RNext template bs))) Noop
        end)) in Ho as (bs & h0 & s0 & H0 & H1 & H2 & H3).
    + exists h0, (SRepeat (Some (RCollect s0 bs))).
      split_and!; [done|by constructor|done].
    + apply items_total.
    + intros h1 w1 [template|err] o1 H.
      * res H. inv_rel. eexists _, h10. split_and!; [eassumption|done|]. apply eqo_refl.
      * destruct (items_total i) as [bs Hi]. res H. inv_rel. exists bs, h10.
        split_and!; [done..|]. apply eqo_refl.
    + intros bs [template|err] h1 h2 Hh; step.
  - assert (forall b i' w',
      (forall p0 bs, Possible N (snd (b w')) p0 -> rel_items i' bs -> rel_items i (p0 :: bs)) ->
      rel_out rel_res (wbind (run_builder b (h, w') (WSTemplate t 0))
        (fun h s => wemit h (WSRepeat (Some (WREmit t s i'))) Noop)) o0 ->
      exists h0 s0, rel_heap h h0 /\ rel (WSRepeat (Some (WRNext t i))) s0 /\
        eqo eqr (ne_body e h0 s0) o0) as Hb.
    { clear Ho. intros b i' w' Hi Ho.
      pose proof (fun o2 => back_run_builder b h w' (WSTemplate t 0) o2) as HB.
      destruct (run_builder b (h, w') _) as [| |[h2 w2] s2]; cbn in Ho.
      - inversion Ho; subst. destruct (HB OutOfFuel) as (p0 & h0 & s0 & G1 & G2 & G3 & G4); [constructor|].
        destruct (items_total i') as [bs Hbs]. inv_rel.
        exists h0, (SRepeat (Some (RNext t (p0 :: bs)))). split_and!; [done|constructor; auto|].
        cbn [ne_body]. rewrite G4. constructor.
      - inversion Ho; subst. destruct (HB Panicked) as (p0 & h0 & s0 & G1 & G2 & G3 & G4); [constructor|].
        destruct (items_total i') as [bs Hbs]. inv_rel.
        exists h0, (SRepeat (Some (RNext t (p0 :: bs)))). split_and!; [done|constructor; auto|].
        cbn [ne_body]. rewrite G4. constructor.
      - res Ho. inversion Ht; subst.
        destruct (HB (Done h10 s')) as (p0 & h0 & s0 & G1 & G2 & G3 & G4); [by constructor|].
        inv_rel. exists h0, (SRepeat (Some (RNext t (p0 :: bs)))). split_and!; [done|constructor; auto|].
        cbn [ne_body]. rewrite G4. apply eqo_refl. }
    destruct i as [[b|] it]; cbn [next_item snd fst] in Ho.
    + apply (Hb b (Items None it) w); [|done]. intros p0 bs Hp Hbs. cbn in Hbs |- *.
      exists p0, bs. split_and!; [done|by exists w|done].
    + destruct (it 0 w) as [w' [b|]] eqn:Eit.
      * apply (Hb b (Items None (fun n => it (S n))) w'); [|done]. intros p0 bs Hp Hbs. cbn in Hbs |- *.
        eapply P_item; [by rewrite Eit|eassumption|]. apply (items_less N); [lia|done].
      * res Ho. inv_rel. exists h10, (SRepeat (Some (RNext t []))).
        split_and!; [done| |apply eqo_refl]. constructor. cbn. apply (P_end N N it w). by rewrite Eit.
  - eapply (okx (rel_items i) _ _ e _ _ _ _ _ _ _ _
              (fun bs s0 => SRepeat (Some (REmit t s0 bs))) _ (b_ne _ _ B) Ho).
    + intros. by constructor.
    + intros. reflexivity.
    + apply items_total.
    + intros ? ? HH; inversion HH; subst; tot. destruct (items_total i) as [bs Hbs].
      eexists _, _. split_and!; [eassumption..|done].
    + intros h1 w1 s1 [ev|] o1 H; leafx H.
    + cg.
    + intros x [ev|] h1 h2 s3 s4 Hh Hs; step.
  - cbn [snd fst] in Ho. destruct (it 0 w) as [w' [item|]] eqn:Eit.
    + destruct (once_total b) as [p Hp]. res Ho. apply inv_roe in Ht as (s' & -> & Hs).
      assert (exists s0 q bs, s' = (if c then select_content_new s0 (CBRepeat (q :: bs))
                                 else SRepeat (Some (RCollect s0 (q :: bs)))) /\
                rel s s0 /\ PossibleItems N N it (q :: bs)) as (s0 & q & bs & -> & Hs0 & Hbs).
      { destruct c; inversion Hs; subst.
        - match goal with H : rel_cb _ _ |- _ => inversion H; subst end.
          match goal with H : rel_items _ _ |- _ => destruct H as (q & rest & -> & [v Hv] & Hr) end.
          eexists _, q, rest. split_and!; [done..|].
          eapply P_item; [by rewrite Eit|eassumption|]. apply (items_less N); [lia|done].
        - match goal with H : rel_items _ _ |- _ => destruct H as (q & rest & -> & [v Hv] & Hr) end.
          eexists _, q, rest. split_and!; [done..|].
          eapply P_item; [by rewrite Eit|eassumption|]. apply (items_less N); [lia|done]. }
      exists h10, (SRepeatOrElse (Some (ROEStart c s0 (q :: bs) p))).
      split_and!; [done|by constructor|apply eqo_refl].
    + assert (PossibleItems N N it []) as Hbs by (apply (P_end N N it w); by rewrite Eit).
      pose proof (fun o2 => back_run_builder b h w' s o2) as HB.
      destruct (run_builder b (h, w') s) as [| |[h2 w2] s2]; cbn in Ho.
      * inversion Ho; subst. destruct (HB OutOfFuel) as (p0 & h0 & s0 & G1 & G2 & G3 & G4); [constructor|].
        exists h0, (SRepeatOrElse (Some (ROEStart c s0 [] p0))).
        split_and!; [done|constructor; [done..|by exists w']|]. cbn [ne_body]. rewrite G4. constructor.
      * inversion Ho; subst. destruct (HB Panicked) as (p0 & h0 & s0 & G1 & G2 & G3 & G4); [constructor|].
        exists h0, (SRepeatOrElse (Some (ROEStart c s0 [] p0))).
        split_and!; [done|constructor; [done..|by exists w']|]. cbn [ne_body]. rewrite G4. constructor.
      * res Ho. inversion Ht; subst.
        destruct (HB (Done h10 s')) as (p0 & h0 & s0 & G1 & G2 & G3 & G4); [by constructor|].
        exists h0, (SRepeatOrElse (Some (ROEStart c s0 [] p0))).
        split_and!; [done|constructor; [done..|by exists w']|]. cbn [ne_body]. rewrite G4. apply eqo_refl.
  - eapply (ok1 _ _ e _ _ _ _ _ _ _ _ (fun s0 => SAttr (Some (AStart s0 c))) _ (b_sk _ _ B) Ho).
    + intros. by constructor.
    + intros. reflexivity.
    + dead1.
    + intros h1 w1 s1 [[]|] o1 H; leaf H.
    + cg.
    + intros [[]|] h1 h2 s1 s2 Hh Hs; step.
Qed.

Lemma back_bind {A B} (RA : A -> B -> Prop) (EB : B -> B -> Prop) fw f h w s
    (k : wheap W -> wstrm W * stream_result -> wout W A) (k0 : heap -> strm * stream_result -> out B) o0 :
  (forall a b c, EB a b -> EB b c -> EB a c) ->
  Back fw f ->
  rel_out RA (wbind (fw (h, w) s) k) o0 ->
  (forall h1 w1 s1 r o0, rel_out RA (k (h1, w1) (s1, r)) o0 ->
     exists h10 s10, rel_heap h1 h10 /\ rel s1 s10 /\ eqo EB (k0 h10 (s10, r)) o0) ->
  (forall r h h' s s', eqh h h' -> eqv s s' -> eqo EB (k0 h (s, r)) (k0 h' (s', r))) ->
  exists h0 s0, rel_heap h h0 /\ rel s s0 /\ eqo EB (obind (f h0 s0) k0) o0.
Proof.
  intros T HB Ho Hk Ck. specialize (HB h w s).
  destruct (fw (h, w) s) as [| |[h1 w1] [s1 r]]; cbn in Ho.
  - inversion Ho; subst. destruct (HB OutOfFuel) as (h0 & s0 & H1 & H2 & H3); [constructor|].
    exists h0, s0. split_and!; [done..|]. inversion H3. constructor.
  - inversion Ho; subst. destruct (HB Panicked) as (h0 & s0 & H1 & H2 & H3); [constructor|].
    exists h0, s0. split_and!; [done..|]. inversion H3. constructor.
  - apply Hk in Ho as (h10 & s10 & G2 & G3 & G4).
    destruct (HB (Done h10 (s10, r))) as (h0 & s0 & H1 & H2 & H3); [by repeat constructor|].
    exists h0, s0. split_and!; [done..|].
    inversion H3 as [| |? ? [s' r'] ? Hh [Hs Hr]]; subst. cbn in Hs, Hr. subst r'. cbn.
    eapply eqo_trans; [done|by apply Ck|done].
Qed.

Lemma run_back n : BackE (wrun n) (run n).
Proof.
  induction n as [|n IH]; split.
  1-4: cbn [wrun run wne wsk wdr wco ne sk dr co].
  1-3: intros h w s o0 Ho; inversion Ho; subst;
    destruct (heap_total h) as [h0 ?], (rel_total s) as [s0 ?];
    exists h0, s0; (split_and!; [done..|constructor]).
  { intros h w s acc o0 Ho. inversion Ho; subst.
    destruct (heap_total h) as [h0 ?], (rel_total s) as [s0 ?].
    exists h0, s0. split_and!; [done..|constructor]. }
  all: cbn [wrun run wne wsk wdr wco ne sk dr co].
  - apply back_ne_body; [done|apply run_eqe].
  - intros h w s o0 Ho. unfold wsk_body in Ho. unfold sk_body.
    eapply (back_bind rel_res eqr); [intros a b c; apply eqr_trans|apply (b_ne _ _ IH)|exact Ho|..].
    + intros h1 w1 s1 r o1 H. destruct r as [[[]|]|].
      all: try (res H; eexists h10, _; split_and!; [done|eassumption|apply eqo_refl]).
      by apply (b_sk _ _ IH) in H.
    + intros r h1 h2 s1 s2 Hh Hs. destruct r as [[[]|]|]; try (constructor; [done|by split]).
      by apply (q_sk _ (run_eqe n)).
  - intros h w s o0 Ho. unfold wdr_body in Ho. unfold dr_body.
    eapply (back_bind rel_res eqr); [intros a b c; apply eqr_trans|apply (b_ne _ _ IH)|exact Ho|..].
    + intros h1 w1 s1 r o1 H. destruct r as [[ev|]|].
      * by apply (b_dr _ _ IH) in H.
      * res H; inv_rel; eexists h10, _; split_and!; [done|eassumption|apply eqo_refl].
      * res H; inv_rel; eexists h10, _; split_and!; [done|eassumption|apply eqo_refl].
    + intros r h1 h2 s1 s2 Hh Hs.
      destruct r as [[ev|]|]; try (constructor; [done|split; [es|done]]).
      by apply (q_dr _ (run_eqe n)).
  - intros h w s acc o0 Ho. unfold wco_body in Ho. unfold co_body.
    eapply (back_bind (=) (=)); [congruence|apply (b_sk _ _ IH)|exact Ho|..].
    + intros h1 w1 s1 r o1 H. destruct r as [[ev|]|].
      * by apply (b_co _ _ IH) in H.
      * inv_done H. destruct (rel_total s1) as [t Ht]. exists h0, t. split_and!; [done..|]. constructor; [apply eqh_refl|done].
      * inv_done H. destruct (rel_total s1) as [t Ht]. exists h0, t. split_and!; [done..|]. constructor; [apply eqh_refl|done].
    + intros r h1 h2 s1 s2 Hh Hs.
      destruct r as [[ev|]|]; try (by constructor). by apply (q_co _ (run_eqe n)).
Qed.
End Back.

(** ** Whole transformations *)

Inductive same_out {W A} : wout W A -> out A -> Prop :=
| SO_fuel : same_out WOutOfFuel OutOfFuel
| SO_panic : same_out WPanicked Panicked
| SO_done h a h0 : same_out (WDone h a) (Done h0 a).

Lemma unroll {W} N n evs (b : once W) w : exists p0,
  Possible N (snd (b w)) p0 /\ same_out (wtransform n evs b w) (transform n evs p0).
Proof.
  assert (exists o0, rel_out N (=) (wtransform n evs b w) o0) as [o0 Ho].
  { destruct (wtransform n evs b w) as [| |[h w'] a]; [eexists; constructor..|].
    destruct (heap_total N w h) as [h0 Hh]. eexists. by constructor. }
  assert (exists p0, Possible N (snd (b w)) p0 /\ eqo (=) (transform n evs p0) o0) as (p0 & Hp & He).
  { unfold wtransform in Ho. unfold transform.
    pose proof (fun o1 => back_run_builder N w b ∅ w (WSTemplate evs 0) o1) as HB.
    assert (forall h0 : heap, rel_heap N (W := W) ∅ h0 -> h0 = ∅) as Hemp.
    { intros h0 Hh. apply map_eq. intros l. specialize (Hh l). rewrite lookup_empty in *.
      by inversion Hh. }
    destruct (run_builder b (∅, w) (WSTemplate evs 0)) as [| |[h1 w1] s1]; cbn in Ho.
    - inversion Ho; subst. destruct (HB OutOfFuel) as (p0 & h0 & s0 & H1 & H2 & H3 & H4); [constructor|].
      apply Hemp in H2. inversion H3; subst. exists p0. rewrite H4. split; [done|constructor].
    - inversion Ho; subst. destruct (HB Panicked) as (p0 & h0 & s0 & H1 & H2 & H3 & H4); [constructor|].
      apply Hemp in H2. inversion H3; subst. exists p0. rewrite H4. split; [done|constructor].
    - apply (b_co _ _ _ (run_back N w n)) in Ho as (h10 & s10 & G1 & G2 & G3).
      destruct (HB (Done h10 s10)) as (p0 & h0 & s0 & H1 & H2 & H3 & H4); [by constructor|].
      apply Hemp in H2. inversion H3; subst. exists p0. rewrite H4. split; done. }
  exists p0. split; [done|].
  destruct Ho; inversion He; subst; constructor.
Qed.
