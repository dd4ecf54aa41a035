(** Proofs for C75: programs that are alike from some time on run in step.

    [AlikeProofs], with stages. *)
From Coq Require Import String ZArith Lia.
From stdpp Require Import gmap.
From Verif Require Import Text Event Input Parse Selector Machine MachineState.
From Verif Require Import SpecTransform SpecState SpecTime StateProofs StateProofs2.
Local Open Scope nat_scope.

Section Time.
Context {X W V : Type} (le : X -> X -> Prop) (R : X -> W -> V -> Prop).
Context (le_refl : forall x, le x x) (le_trans : forall x y z, le x y -> le y z -> le x z).

Definition sim_once : X -> once W -> once V -> Prop := SinceOnce le R.
Definition sim_iter : X -> iterator W -> iterator V -> Prop := SinceIter le R.
Definition sim_many (x : X) (b : builder W) (c : builder V) : Prop := forall k, sim_once x (b k) (c k).
Definition sim_fun (x : X) (f : W -> list event -> W * (list event + stream_error))
    (g : V -> list event -> V * (list event + stream_error)) : Prop :=
  forall y w v events, le x y -> R y w v ->
    exists z, le y z /\ R z (fst (f w events)) (fst (g v events)) /\
      snd (f w events) = snd (g v events).
Definition sim_live (x : X) (f : live W) (g : live V) : Prop :=
  exists I : nat -> X -> Prop, I 0 x /\ (forall k y z, I k y -> le y z -> I k z) /\
    forall k y w v, I k y -> R y w v -> SinceAnswer le R (I (S k)) y (f k w) (g k v).
Inductive sim_item (x : X) : option (once W) -> option (once V) -> Prop :=
| MI_none : sim_item x None None
| MI_some b c : sim_once x b c -> sim_item x (Some b) (Some c).
Inductive sim_items (x : X) : items W -> items V -> Prop :=
| MI_items b c it jt : sim_item x b c -> sim_iter x it jt -> sim_items x (Items b it) (Items c jt).

Inductive sim : X -> wstrm W -> wstrm V -> Prop :=
| M_template x evs i : sim x (WSTemplate evs i) (WSTemplate evs i)
| M_user x evs stop : sim x (WSUser evs stop) (WSUser evs stop)
| M_live_none x : sim x (WSLive None) (WSLive None)
| M_live x f g : sim_live x f g -> sim x (WSLive (Some f)) (WSLive (Some g))
| M_content x d : sim x (WSContent d) (WSContent d)
| M_shared x l : sim x (WSShared l) (WSShared l)
| M_fallible_none x : sim x (WSFallible None) (WSFallible None)
| M_fallible_ok x s s' : sim x s s' ->
    sim x (WSFallible (Some (WFStart (inl s)))) (WSFallible (Some (WFStart (inl s'))))
| M_fallible_err x e : sim x (WSFallible (Some (WFStart (inr e)))) (WSFallible (Some (WFStart (inr e))))
| M_fallible_emit x s s' : sim x s s' ->
    sim x (WSFallible (Some (WFEmit s))) (WSFallible (Some (WFEmit s')))
| M_expand_none x : sim x (WSExpand None) (WSExpand None)
| M_expand_start x s s' : sim x s s' ->
    sim x (WSExpand (Some (WXStart s))) (WSExpand (Some (WXStart s')))
| M_expand_stream x s s' : sim x s s' ->
    sim x (WSExpand (Some (WXEmitStream s))) (WSExpand (Some (WXEmitStream s')))
| M_expand_close x tag :
    sim x (WSExpand (Some (WXEmitClosingTag tag))) (WSExpand (Some (WXEmitClosingTag tag)))
| M_peek x s s' b : sim x s s' -> sim x (WSPeek s b) (WSPeek s' b)
| M_combine_none x : sim x (WSCombine None) (WSCombine None)
| M_combine_first x s s' t t' : sim x s s' -> sim x t t' ->
    sim x (WSCombine (Some (WCmbFirst s t))) (WSCombine (Some (WCmbFirst s' t')))
| M_combine_second x s s' : sim x s s' ->
    sim x (WSCombine (Some (WCmbSecond s))) (WSCombine (Some (WCmbSecond s')))
| M_remove x s s' : sim x s s' -> sim x (WSRemove s) (WSRemove s')
| M_single_none x : sim x (WSSingle None) (WSSingle None)
| M_single_start x ev s s' : sim x s s' ->
    sim x (WSSingle (Some (WSEStart ev s))) (WSSingle (Some (WSEStart ev s')))
| M_single_until x tag s s' level : sim x s s' ->
    sim x (WSSingle (Some (WSEUntilClose tag s level))) (WSSingle (Some (WSEUntilClose tag s' level)))
| M_select_none x l m b b' calls direct : sim_many x b b' ->
    sim x (WSSelect l m b calls direct None) (WSSelect l m b' calls direct None)
| M_select_scan x l m b b' calls direct level : sim_many x b b' ->
    sim x (WSSelect l m b calls direct (Some (WSelScanning level)))
        (WSSelect l m b' calls direct (Some (WSelScanning level)))
| M_select_active x l m b b' calls direct level s s' : sim_many x b b' -> sim x s s' ->
    sim x (WSSelect l m b calls direct (Some (WSelActive level s)))
        (WSSelect l m b' calls direct (Some (WSelActive level s')))
| M_once_none x l : sim x (WSSelectOnce l None) (WSSelectOnce l None)
| M_once_scan x l m b p direct level : sim_once x b p ->
    sim x (WSSelectOnce l (Some (WSelOScanning m b direct level)))
        (WSSelectOnce l (Some (WSelOScanning m p direct level)))
| M_once_active x l s s' : sim x s s' ->
    sim x (WSSelectOnce l (Some (WSelOActive s))) (WSSelectOnce l (Some (WSelOActive s')))
| M_once_pass x l :
    sim x (WSSelectOnce l (Some WSelOPassthrough)) (WSSelectOnce l (Some WSelOPassthrough))
| M_sc_none x : sim x (WSSelectContent None) (WSSelectContent None)
| M_sc_open x s s' b b' : sim x s s' -> sim_cb x b b' ->
    sim x (WSSelectContent (Some (WSCOpen s b))) (WSSelectContent (Some (WSCOpen s' b')))
| M_sc_content x l s s' tag : sim x s s' ->
    sim x (WSSelectContent (Some (WSCContent l s tag))) (WSSelectContent (Some (WSCContent l s' tag)))
| M_sc_close x l tag :
    sim x (WSSelectContent (Some (WSCClose l tag))) (WSSelectContent (Some (WSCClose l tag)))
| M_cc x st : sim x (WSCurrentContent st) (WSCurrentContent st)
| M_either x first s s' : sim x s s' -> sim x (WSApplyEither first s) (WSApplyEither first s')
| M_ta_none x : sim x (WSTemplateApply None) (WSTemplateApply None)
| M_ta_collect x s s' f f' : sim x s s' -> sim_fun x f f' ->
    sim x (WSTemplateApply (Some (WTACollect s f))) (WSTemplateApply (Some (WTACollect s' f')))
| M_ta_emit x evs i :
    sim x (WSTemplateApply (Some (WTAEmit evs i))) (WSTemplateApply (Some (WTAEmit evs i)))
| M_repeat_none x : sim x (WSRepeat None) (WSRepeat None)
| M_repeat_collect x s s' i bs : sim x s s' -> sim_items x i bs ->
    sim x (WSRepeat (Some (WRCollect s i))) (WSRepeat (Some (WRCollect s' bs)))
| M_repeat_next x t i bs : sim_items x i bs ->
    sim x (WSRepeat (Some (WRNext t i))) (WSRepeat (Some (WRNext t bs)))
| M_repeat_emit x t s s' i bs : sim x s s' -> sim_items x i bs ->
    sim x (WSRepeat (Some (WREmit t s i))) (WSRepeat (Some (WREmit t s' bs)))
| M_roe_none x : sim x (WSRepeatOrElse None) (WSRepeatOrElse None)
| M_roe_start x c s s' it bs b p : sim x s s' -> sim_iter x it bs -> sim_once x b p ->
    sim x (WSRepeatOrElse (Some (WROEStart c s it b))) (WSRepeatOrElse (Some (WROEStart c s' bs p)))
| M_roe_fallback x s s' : sim x s s' ->
    sim x (WSRepeatOrElse (Some (WROEFallback s))) (WSRepeatOrElse (Some (WROEFallback s')))
| M_roe_repeat x s s' : sim x s s' ->
    sim x (WSRepeatOrElse (Some (WROERepeat s))) (WSRepeatOrElse (Some (WROERepeat s')))
| M_attr_none x : sim x (WSAttr None) (WSAttr None)
| M_attr_start x s s' c : sim x s s' ->
    sim x (WSAttr (Some (WAStart s c))) (WSAttr (Some (WAStart s' c)))
| M_attr_emit x s s' : sim x s s' ->
    sim x (WSAttr (Some (WAEmit s))) (WSAttr (Some (WAEmit s')))
with sim_cb : X -> @wcontent_builder W -> @wcontent_builder V -> Prop :=
| MC_user x b p : sim_once x b p -> sim_cb x (WCBUser b) (WCBUser p)
| MC_remove x : sim_cb x WCBRemove WCBRemove
| MC_replace x n n' : sim x n n' -> sim_cb x (WCBReplace n) (WCBReplace n')
| MC_append x n n' : sim x n n' -> sim_cb x (WCBAppend n) (WCBAppend n')
| MC_prepend x n n' : sim x n n' -> sim_cb x (WCBPrepend n) (WCBPrepend n')
| MC_select x direct m b b' : sim_many x b b' -> sim_cb x (WCBSelect direct m b) (WCBSelect direct m b')
| MC_select_once x direct m b p : sim_once x b p ->
    sim_cb x (WCBSelectOnce direct m b) (WCBSelectOnce direct m p)
| MC_repeat x i bs : sim_items x i bs -> sim_cb x (WCBRepeat i) (WCBRepeat bs).


Scheme sim_mut := Minimality for sim Sort Prop
  with sim_cb_mut := Minimality for sim_cb Sort Prop.

Lemma once_mono x y b c : le x y -> sim_once x b c -> sim_once y b c.
Proof. intros Hxy H. destruct H as [x b c H]. constructor. intros. apply H; eauto. Qed.
Lemma many_mono x y b c : le x y -> sim_many x b c -> sim_many y b c.
Proof. intros Hxy H k. eapply once_mono; eauto. Qed.
Lemma iter_mono x y it jt : le x y -> sim_iter x it jt -> sim_iter y it jt.
Proof. intros Hxy H. destruct H as [x I it jt H0 Hc H]. apply (I_iter _ _ _ I); eauto. Qed.
Lemma fun_mono x y f g : le x y -> sim_fun x f g -> sim_fun y f g.
Proof. intros Hxy H z w v evs Hz. apply H. eauto. Qed.
Lemma live_mono x y f g : le x y -> sim_live x f g -> sim_live y f g.
Proof. intros Hxy (I & H0 & Hc & H). exists I. eauto. Qed.
Lemma item_mono x y b c : le x y -> sim_item x b c -> sim_item y b c.
Proof. intros Hxy [|? ? H]; constructor. eapply once_mono; eauto. Qed.
Lemma items_mono x y i j : le x y -> sim_items x i j -> sim_items y i j.
Proof. intros Hxy [? ? ? ? H H']. constructor; [eapply item_mono|eapply iter_mono]; eauto. Qed.
Lemma sim_mono x y s s' : le x y -> sim x s s' -> sim y s s'.
Proof.
  intros Hxy H. revert y Hxy. revert x s s' H.
  apply (sim_mut (fun x s s' => forall y, le x y -> sim y s s')
                 (fun x b b' => forall y, le x y -> sim_cb y b b')); intros; constructor;
    eauto using once_mono, many_mono, iter_mono, fun_mono, live_mono, items_mono.
Qed.
Lemma cb_mono x y b b' : le x y -> sim_cb x b b' -> sim_cb y b b'.
Proof.
  intros Hxy H. destruct H; constructor;
    eauto using once_mono, many_mono, iter_mono, fun_mono, live_mono, items_mono, sim_mono.
Qed.

(** ** Heaps and outcomes *)

Inductive sim_cell (x : X) : option (wcell W) -> option (wcell V) -> Prop :=
| ML_none : sim_cell x None None
| ML_borrowed : sim_cell x (Some WBorrowed) (Some WBorrowed)
| ML_cell s s' : sim x s s' -> sim_cell x (Some (WCell s)) (Some (WCell s')).
Definition sim_heap (x : X) (h : wheap W) (h' : wheap V) : Prop :=
  (forall l, sim_cell x (fst h !! l) (fst h' !! l)) /\ R x (snd h) (snd h').
Lemma cell_mono x y c c' : le x y -> sim_cell x c c' -> sim_cell y c c'.
Proof. intros Hxy []; constructor. eapply sim_mono; eauto. Qed.
Lemma simh_insert x h h' l c c' w v : sim_heap x h h' -> sim_cell x (Some c) (Some c') -> R x w v ->
  sim_heap x (<[l := c]> (fst h), w) (<[l := c']> (fst h'), v).
Proof.
  intros [Hh _] Hc Hw. split; [|done]. intros k. cbn. destruct (decide (l = k)) as [->|Hn].
  - by rewrite !lookup_insert.
  - rewrite !lookup_insert_ne by done. apply Hh.
Qed.
Lemma simh_world x y h h' w v : sim_heap x h h' -> le x y -> R y w v ->
  sim_heap y (fst h, w) (fst h', v).
Proof. intros [H _] Hxy HR. split; [|done]. intros l. eapply cell_mono; [done|apply H]. Qed.
Lemma simh_fresh x h h' : sim_heap x h h' -> wfresh_loc (fst h) = wfresh_loc (fst h').
Proof.
  intros [Hh _]. apply fold_locs_eq. intros l. specialize (Hh l).
  inversion Hh; split; intros [? ?]; eauto; congruence.
Qed.

Inductive sim_out {A B} (Q : X -> A -> B -> Prop) (x : X) : wout W A -> wout V B -> Prop :=
| MO_fuel : sim_out Q x WOutOfFuel WOutOfFuel
| MO_panic : sim_out Q x WPanicked WPanicked
| MO_done z h h' a a' : le x z -> sim_heap z h h' -> Q z a a' -> sim_out Q x (WDone h a) (WDone h' a').
Definition sim_res (x : X) (a : wstrm W * stream_result) (c : wstrm V * stream_result) : Prop :=
  sim x a.1 c.1 /\ a.2 = c.2.

Lemma out_mono {A B} (Q : X -> A -> B -> Prop) x y o o' : le x y -> sim_out Q y o o' -> sim_out Q x o o'.
Proof.
  intros Hxy [| |z h h' a a' Hz Hh Ha]; [constructor..|]. apply (MO_done _ _ z); [|done..].
  by eapply le_trans.
Qed.
Lemma sim_now {A B} (Q : X -> A -> B -> Prop) x h h' a a' : sim_heap x h h' -> Q x a a' ->
  sim_out Q x (WDone h a) (WDone h' a').
Proof. intros. by apply (MO_done _ _ x). Qed.
Lemma sim_bind {A B C D} (Q : X -> A -> B -> Prop) (S : X -> C -> D -> Prop) x o o' k k' :
  sim_out Q x o o' ->
  (forall y h h' a a', le x y -> sim_heap y h h' -> Q y a a' -> sim_out S y (k h a) (k' h' a')) ->
  sim_out S x (wbind o k) (wbind o' k').
Proof.
  intros [| |z h h' a a' Hz Hh Ha] Hk; cbn; [constructor|constructor|]. eapply out_mono; [done|]. by apply Hk.
Qed.
Lemma sim_on_ok x o o' dead dead' k k' :
  sim_out sim_res x o o' -> (forall y s s', le x y -> sim y s s' -> sim y (dead s) (dead' s')) ->
  (forall y h h' s s' r, le x y -> sim_heap y h h' -> sim y s s' ->
     sim_out sim_res y (k h s r) (k' h' s' r)) ->
  sim_out sim_res x (won_ok o dead k) (won_ok o' dead' k').
Proof.
  intros Ho Hd Hk. unfold won_ok. eapply sim_bind; [done|].
  intros y h h' [s r] [s' r'] Hy Hh [Hs Hr]. cbn in Hs, Hr. subst r'. destruct r as [r|e].
  - by apply Hk.
  - apply sim_now; [done|]. split; cbn; auto.
Qed.
Lemma sim_emit x h h' s s' ev : sim_heap x h h' -> sim x s s' ->
  sim_out sim_res x (wemit h s ev) (wemit h' s' ev).
Proof. intros. apply sim_now; [done|]. by split. Qed.
Lemma sim_finish x h h' s s' : sim_heap x h h' -> sim x s s' ->
  sim_out sim_res x (wfinish h s) (wfinish h' s').
Proof. intros. apply sim_now; [done|]. by split. Qed.
Lemma sim_fail x h h' s s' e : sim_heap x h h' -> sim x s s' ->
  sim_out sim_res x (wfail h s e) (wfail h' s' e).
Proof. intros. apply sim_now; [done|]. by split. Qed.
Lemma sim_pass x o o' dead dead' cont cont' :
  sim_out sim_res x o o' -> (forall y, le x y -> sim y dead dead') ->
  (forall y s s', le x y -> sim y s s' -> sim y (cont s) (cont' s')) ->
  sim_out sim_res x (wpassthrough o dead cont) (wpassthrough o' dead' cont').
Proof.
  intros Ho Hd Hc. unfold wpassthrough. eapply sim_on_ok; [done|auto|].
  intros y h h' s s' [ev|] Hy Hh Hs; [apply sim_emit|apply sim_finish]; auto.
Qed.
Lemma sim_with_cell x h h' l f f' :
  sim_heap x h h' ->
  (forall h h' s s', sim_heap x h h' -> sim x s s' -> sim_out sim_res x (f h s) (f' h' s')) ->
  sim_out sim_res x (wwith_cell h l f) (wwith_cell h' l f').
Proof.
  intros Hh Hf. unfold wwith_cell.
  pose proof (proj1 Hh l) as Hl. inversion Hl as [| |s s' Hs E E'].
  - constructor.
  - constructor.
  - eapply sim_bind.
    + apply Hf; [|done]. apply simh_insert; [done|constructor|apply Hh].
    + intros y k k' [t r] [t' r'] Hy Hk [Ht Hr]. cbn in Ht, Hr. subst r'. apply sim_now.
      * apply simh_insert; [done|by constructor|apply Hk].
      * split; [constructor|done].
Qed.

(** ** Building *)

Lemma sim_into_stream x c : sim x (winto_stream c) (winto_stream c).
Proof.
  revert c. fix IH 1. intros [evs|d|v|s|z|evs stop|[c|e]]; cbn; constructor. apply IH.
Qed.
Lemma sim_content_stream x c c' : SinceContent le R x c c' -> sim x (wcontent_stream c) (wcontent_stream c').
Proof.
  induction 1 as [c|I f g H1 H2 H3|c c' _ IH]; cbn.
  - apply sim_into_stream.
  - constructor. by exists I.
  - by constructor.
Qed.
Lemma sim_select_new x h h' s s' m b b' direct :
  sim_heap x h h' -> sim x s s' -> sim_many x b b' ->
  exists k k' t t', wselect_new h s m b direct = (k, t) /\
    wselect_new h' s' m b' direct = (k', t') /\ sim_heap x k k' /\ sim x t t'.
Proof.
  intros Hh Hs Hb. unfold wselect_new. cbn [fst snd]. rewrite <- (simh_fresh x h h' Hh).
  do 4 eexists. split_and!; [done..| |by constructor].
  apply simh_insert; [done|by constructor|apply Hh].
Qed.
Lemma sim_select_once_new x h h' s s' m b b' direct :
  sim_heap x h h' -> sim x s s' -> sim_once x b b' ->
  exists k k' t t', wselect_once_new h s m b direct = (k, t) /\
    wselect_once_new h' s' m b' direct = (k', t') /\ sim_heap x k k' /\ sim x t t'.
Proof.
  intros Hh Hs Hb. unfold wselect_once_new. cbn [fst snd].
  rewrite <- (simh_fresh x h h' Hh).
  do 4 eexists. split_and!; [done..| |by constructor].
  apply simh_insert; [done|by constructor|apply Hh].
Qed.

(** Building does not call closures, the stage stays. *)
Inductive sim_made (x : X) : wout W (wstrm W) -> wout V (wstrm V) -> Prop :=
| MM_fuel : sim_made x WOutOfFuel WOutOfFuel
| MM_panic : sim_made x WPanicked WPanicked
| MM_done h h' s s' : sim_heap x h h' -> sim x s s' -> sim_made x (WDone h s) (WDone h' s').
Lemma made_bind x o o' k k' : sim_made x o o' ->
  (forall h h' s s', sim_heap x h h' -> sim x s s' -> sim_made x (k h s) (k' h' s')) ->
  sim_made x (wbind o k) (wbind o' k').
Proof. intros [] Hk; cbn; [constructor|constructor|]. by apply Hk. Qed.
Lemma made_out x y o o' : le x y -> sim_made y o o' -> sim_out sim x o o'.
Proof. intros Hxy []; [constructor..|]. by apply (MO_done _ _ y). Qed.

Lemma sim_attr_new x h h' s s' name c :
  sim_heap x h h' -> sim x s s' -> sim_made x (wattr_new h s name c) (wattr_new h' s' name c).
Proof.
  intros Hh Hs. unfold wattr_new. destruct name as [name|e].
  - destruct (c name); constructor; [done|]. repeat constructor. done.
  - constructor; [done|constructor].
Qed.

Lemma sim_build_op : forall x o o', SinceOp le R x o o' -> forall h h' s s', sim_heap x h h' -> sim x s s' ->
  sim_made x (wbuild_op o h s) (wbuild_op o' h' s').
Proof.
  fix IH 4. intros x o o' Ho h h' s s' Hh Hs.
  assert (forall x p q (Hp : Since le R x p q) h h' s s', sim_heap x h h' -> sim x s s' ->
    sim_made x (wbuild_fix p h s) (wbuild_fix q h' s')) as IHp.
  { fix IHp 4. intros y p q [y'|y' a a' p' q' Ha Hp] k k' t t' Hk Ht; cbn.
    - by constructor.
    - eapply made_bind; [exact (IH y' a a' Ha k k' t t' Hk Ht)|].
      intros j j' u u' Hj Hu. exact (IHp y' p' q' Hp j j' u u' Hj Hu). }
  pose proof sim_content_stream as Hc.
  destruct Ho; cbn [wbuild_op]; fold (@wbuild_fix W); fold (@wbuild_fix V).
  all: try (repeat first [assumption | apply sim_attr_new; assumption | apply IHp; assumption
        | constructor; [assumption|] | apply Hc; assumption | progress constructor]; fail).
  - eapply made_bind; [apply IHp; eassumption|]. intros. constructor; [done|]. by constructor.
  - destruct sel as [m|e]; [|constructor; [done|constructor]].
    destruct (sim_select_new x h h' s s' m b c direct Hh Hs) as (k & k' & t & t' & E & E' & ? & ?); [done|].
    rewrite E, E'. constructor; [done|]. by constructor.
  - destruct sel as [m|e]; [|constructor; [done|constructor]].
    destruct (sim_select_once_new x h h' s s' m b c direct Hh Hs) as (k & k' & t & t' & E & E' & ? & ?); [done|].
    rewrite E, E'. constructor; [done|]. by constructor.
  - destruct sel as [m|e]; (constructor; [done|]); [|constructor].
    apply M_fallible_ok, M_sc_open; [done|]. by constructor.
  - destruct sel as [m|e]; (constructor; [done|]); [|constructor].
    apply M_fallible_ok, M_sc_open; [done|]. by constructor.
Qed.
Lemma sim_build x p q : Since le R x p q -> forall h h' s s', sim_heap x h h' -> sim x s s' ->
  sim_made x (wbuild p h s) (wbuild q h' s').
Proof.
  induction 1 as [|x o o' p q Ho Hp IHp]; intros h h' s s' Hh Hs; cbn.
  - by constructor.
  - eapply made_bind; [apply sim_build_op; done|]. auto.
Qed.
Lemma sim_run_builder x b c h h' s s' : sim_once x b c -> sim_heap x h h' -> sim x s s' ->
  sim_out sim x (run_builder b h s) (run_builder c h' s').
Proof.
  intros Hb Hh Hs. destruct Hb as [x b c Hb]. unfold run_builder.
  specialize (Hb x (snd h) (snd h') (le_refl x) (proj2 Hh)).
  destruct Hb as [x z w v p q Hz HR Hp]. apply (made_out _ z); [done|].
  apply sim_build; [done|by eapply simh_world|by eapply sim_mono].
Qed.
Lemma sim_build_content x b b' h h' s s' : sim_cb x b b' -> sim_heap x h h' -> sim x s s' ->
  sim_out sim x (wbuild_content b h s) (wbuild_content b' h' s').
Proof.
  intros Hb Hh Hs. destruct Hb; cbn [wbuild_content].
  - by apply sim_run_builder.
  - apply sim_now; [done|]. by constructor.
  - apply sim_now; [done|]. by repeat constructor.
  - apply sim_now; [done|]. by repeat constructor.
  - apply sim_now; [done|]. by repeat constructor.
  - destruct (sim_select_new x h h' s s' m b b' direct) as (k & k' & t & t' & E & E' & ? & ?); [done..|].
    rewrite E, E'. by apply sim_now.
  - destruct (sim_select_once_new x h h' s s' m b p direct) as (k & k' & t & t' & E & E' & ? & ?); [done..|].
    rewrite E, E'. by apply sim_now.
  - apply sim_now; [done|]. by constructor.
Qed.

(** ** Running *)

Record SimE (e : wengine W) (e' : wengine V) : Prop :=
  { m_ne : forall x h h' s s', sim_heap x h h' -> sim x s s' -> sim_out sim_res x (wne e h s) (wne e' h' s');
    m_sk : forall x h h' s s', sim_heap x h h' -> sim x s s' -> sim_out sim_res x (wsk e h s) (wsk e' h' s');
    m_dr : forall x h h' s s', sim_heap x h h' -> sim x s s' -> sim_out sim_res x (wdr e h s) (wdr e' h' s');
    m_co : forall x h h' s s' acc, sim_heap x h h' -> sim x s s' ->
             sim_out (fun _ => eq) x (wco e h s acc) (wco e' h' s' acc) }.

Lemma sim_peek x e e' h h' s s' : SimE e e' -> sim_heap x h h' -> sim x s s' ->
  sim_out sim_res x (wpeek e h s) (wpeek e' h' s').
Proof.
  intros He Hh Hs. inversion Hs; subst; cbn [wpeek]; try constructor.
  destruct b as [ev|].
  - apply sim_now; [done|]. split; [by constructor|done].
  - eapply sim_on_ok; [apply (m_sk _ _ He); eassumption| |].
    + intros. by constructor.
    + intros. apply sim_now; [done|]. split; [by constructor|done].
Qed.

Ltac mle := first [eassumption | eapply le_trans; eassumption].
Ltac mleaf := first
  [ assumption
  | eapply sim_mono; [|eassumption]; mle
  | eapply many_mono; [|eassumption]; mle
  | eapply once_mono; [|eassumption]; mle
  | eapply iter_mono; [|eassumption]; mle
  | eapply items_mono; [|eassumption]; mle
  | eapply fun_mono; [|eassumption]; mle
  | eapply cb_mono; [|eassumption]; mle ].
Ltac ms := first [mleaf | constructor; mleaf | constructor; ms].
Ltac mstep := first
  [ apply sim_emit; [assumption|ms]
  | apply sim_finish; [assumption|ms]
  | apply sim_fail; [assumption|ms] ].

Lemma sim_iter_next x it jt w v : sim_iter x it jt -> R x w v ->
  exists z, le x z /\ R z (fst (it 0 w)) (fst (jt 0 v)) /\
    sim_item z (snd (it 0 w)) (snd (jt 0 v)) /\
    (snd (it 0 w) <> None -> sim_iter z (fun n => it (S n)) (fun n => jt (S n))).
Proof.
  intros H HR. destruct H as [x I it jt H0 Hc H]. pose proof (H 0 x w v H0 HR) as HN.
  inversion HN as [J y z w' v' Hz HR' E1 E2 Ea Eb|J y z w' v' b c Hz HR' HJ Hb E1 E2 Ea Eb]; subst; cbn [fst snd];
    exists z; (split; [done|split; [done|split]]).
  - constructor.
  - done.
  - by constructor.
  - intros _. apply (I_iter _ _ _ (fun k => I (S k))); eauto.
Qed.
Lemma sim_live_next x f g w v : sim_live x f g -> R x w v ->
  exists z, le x z /\ R z (fst (f 0 w)) (fst (g 0 v)) /\ snd (f 0 w) = snd (g 0 v) /\
    (forall ev, snd (f 0 w) = inl (Some ev) -> sim_live z (fun n => f (S n)) (fun n => g (S n))).
Proof.
  intros (I & H0 & Hc & H) HR. destruct (H 0 x w v H0 HR) as (z & Hz & HR' & E & HJ).
  exists z. split_and!; [done..|]. intros ev Ev. exists (fun k => I (S k)). split_and!; eauto.
Qed.

Lemma sim_ne_body x e e' h h' s s' : SimE e e' -> sim_heap x h h' -> sim x s s' ->
  sim_out sim_res x (wne_body e h s) (wne_body e' h' s').
Proof.
  intros He Hh Hs.
  assert (forall l, sim_out sim_res x (wne e h (WSShared l)) (wne e' h' (WSShared l))) as Hne
    by (intros; apply (m_ne _ _ He); [done|constructor]).
  assert (forall l, sim_out sim_res x (wsk e h (WSShared l)) (wsk e' h' (WSShared l))) as Hsk
    by (intros; apply (m_sk _ _ He); [done|constructor]).
  inversion Hs; subst; cbn [wne_body].
  all: try (by mstep).
  all: try (by (apply sim_pass; [first [apply (m_ne _ _ He); ms | apply (m_sk _ _ He); ms | apply Hne]|intros; ms
                                |intros; ms])).
  - destruct (nth_error evs i); mstep.
  - destruct evs, stop; mstep.
  - match goal with H : sim_live _ _ _ |- _ =>
      destruct (sim_live_next x f g _ _ H (proj2 Hh)) as (z & Hz & HR & Er & Hn) end.
    destruct (f 0 (snd h)) as [w r], (g 0 (snd h')) as [v r']; cbn in HR, Er, Hn; subst r'.
    eapply out_mono; [exact Hz|]. pose proof (simh_world x z h h' w v Hh Hz HR).
    destruct r as [[ev|]|err].
    + apply sim_emit; [done|]. constructor. eauto.
    + mstep.
    + mstep.
  - destruct d; mstep.
  - apply sim_with_cell; [done|]. intros. by apply (m_ne _ _ He).
  - eapply sim_on_ok; [apply (m_sk _ _ He); eassumption|intros; ms|].
    intros y k k' t t' [[]|] Hy Hk Ht; mstep.
  - destruct b; [mstep|]. eapply sim_on_ok; [apply (m_sk _ _ He); eassumption|intros; ms|].
    intros. apply sim_now; [done|]. split; [ms|done].
  - eapply sim_on_ok; [apply (m_sk _ _ He); eassumption|intros; ms|].
    intros y k k' u u' [ev|] Hy Hk Hu; mstep.
  - by apply (m_dr _ _ He).
  - destruct ev; mstep.
  - eapply sim_on_ok; [apply (m_ne _ _ He); eassumption|intros; ms|].
    intros y k k' u u' [ev|] Hy Hk Hu; [|mstep].
    destruct (is_opening_tag_for ev tag); [mstep|]. destruct (is_closing_tag_for ev tag); [|mstep].
    destruct level; mstep.
  - eapply sim_on_ok; [apply Hsk|intros; ms|].
    intros y k k' u u' [ev|] Hy Hk _; [|mstep].
    destruct (include direct level && matches m ev).
    + eapply sim_bind; [apply sim_run_builder; [eapply once_mono; [exact Hy|by apply H]|done|ms]|].
      intros. mstep.
    + destruct (adjust level ev); mstep.
  - eapply sim_on_ok; [apply (m_ne _ _ He); eassumption|intros; ms|].
    intros y k k' u u' [ev|] Hy Hk Hu; mstep.
  - eapply sim_on_ok; [apply Hsk|intros; ms|].
    intros y k k' u u' [ev|] Hy Hk _; [|mstep].
    destruct (include direct level && matches m ev).
    + eapply sim_bind; [apply sim_run_builder; [eapply once_mono; eassumption|done|ms]|]. intros. mstep.
    + destruct (adjust level ev); mstep.
  - eapply sim_on_ok; [apply (m_ne _ _ He); eassumption|intros; ms|].
    intros y k k' u u' [ev|] Hy Hk Hu; mstep.
  - eapply sim_on_ok; [apply (m_sk _ _ He); [done|ms]|intros; ms|].
    intros y k k' u u' [ev|] Hy Hk Hu; [|mstep]. destruct ev; try mstep. cbv zeta.
    rewrite <- (simh_fresh y k k' Hk). eapply sim_bind.
    + apply sim_build_content; [eapply cb_mono; eassumption| |ms].
      apply simh_insert; [done| |apply Hk]. constructor. ms.
    + intros. mstep.
  - eapply sim_on_ok; [apply (m_ne _ _ He); eassumption|intros; ms|].
    intros y k k' u u' [ev|] Hy Hk Hu; mstep.
  - eapply sim_on_ok; [apply Hsk|intros; ms|].
    intros y k k' u u' [ev|] Hy Hk Hu; [|mstep]. destruct ev; try mstep.
    destruct (ident_eqb _ _); mstep.
  - destruct st as [[[tag l] level]|]; [|mstep].
    assert (forall y k k', sim_heap y k k' ->
      sim_out sim_res y
        (won_ok (wne e k (WSShared l)) (fun _ => WSCurrentContent None) (fun h _ r =>
          match r with
          | None => wfail h (WSCurrentContent None) (missing_close tag)
          | Some ev =>
              match adjust level ev with
              | inl level => wemit h (WSCurrentContent (Some (tag, l, level))) ev
              | inr _ => wfail h (WSCurrentContent None) (missing_close tag)
              end
          end))
        (won_ok (wne e' k' (WSShared l)) (fun _ => WSCurrentContent None) (fun h _ r =>
          match r with
          | None => wfail h (WSCurrentContent None) (missing_close tag)
          | Some ev =>
              match adjust level ev with
              | inl level => wemit h (WSCurrentContent (Some (tag, l, level))) ev
              | inr _ => wfail h (WSCurrentContent None) (missing_close tag)
              end
          end))) as Hnext.
    { intros y k k' Hk. eapply sim_on_ok; [apply (m_ne _ _ He); [done|ms]|intros; ms|].
      intros z j j' u u' [ev|] Hz Hj Hu; [|mstep]. destruct (adjust level ev); mstep. }
    cbv zeta. destruct (negb (Nat.eqb level 0)); [by apply Hnext|].
    eapply sim_on_ok; [apply sim_with_cell; [done|intros; by apply sim_peek]|intros; ms|].
    intros y k k' u u' [ev|] Hy Hk Hu; [|mstep].
    destruct (is_closing_tag_for ev tag); [mstep|by apply Hnext].
  - eapply sim_bind; [apply (m_ne _ _ He); eassumption|].
    intros y k k' [u r] [u' r'] Hy Hk [Hu Hr]. cbn in Hu, Hr. subst r'. apply sim_now; [done|].
    split; [ms|done].
  - eapply sim_bind; [apply (m_co _ _ He); eassumption|].
    intros y k k' r r' Hy Hk <-. destruct r as [t|err]; [|mstep].
    match goal with H : sim_fun _ _ _ |- _ =>
      destruct (H y (snd k) (snd k') t Hy (proj2 Hk)) as (z & Hz & HR & Er) end.
    destruct (f (snd k) t) as [w r], (f' (snd k') t) as [v r']. cbn in HR, Er. subst r'.
    eapply out_mono; [exact Hz|]. pose proof (simh_world y z k k' w v Hk Hz HR). destruct r; mstep.
  - apply sim_pass; [apply (m_ne _ _ He); ms|intros; ms|]. intros y u u' Hy Hu.
    inversion Hu; subst; ms.
  - eapply sim_bind; [apply (m_co _ _ He); eassumption|].
    intros y k k' r r' Hy Hk <-. destruct r as [t|err]; mstep.
  - match goal with H : sim_items _ _ _ |- _ => destruct H as [b c it jt Hb Hi] end.
    destruct Hb as [|b c Hb]; cbn [next_item].
    + destruct (sim_iter_next x it jt _ _ Hi (proj2 Hh)) as (z & Hz & HR & Hit & Hn).
      destruct (it 0 (snd h)) as [w r], (jt 0 (snd h')) as [v r']. cbn in HR, Hit, Hn.
      pose proof (simh_world x z h h' w v Hh Hz HR) as Hh'. eapply out_mono; [exact Hz|].
      destruct Hit as [|b c Hb]; [mstep|].
      assert (sim_items z (Items None (fun n => it (S n))) (Items None (fun n => jt (S n)))).
      { constructor; [constructor|]. by apply Hn. }
      eapply sim_bind; [apply sim_run_builder; [exact Hb|done|ms]|]. intros. mstep.
    + assert (sim_items x (Items None it) (Items None jt)) by (constructor; [constructor|done]).
      destruct h as [h w], h' as [h' w'].
      eapply sim_bind; [apply sim_run_builder; [exact Hb|done|ms]|]. intros. mstep.
  - eapply sim_on_ok; [apply (m_ne _ _ He); eassumption|intros; ms|].
    intros y k k' u u' [ev|] Hy Hk Hu; mstep.
  - match goal with H : sim_iter _ _ _ |- _ =>
      destruct (sim_iter_next x _ _ _ _ H (proj2 Hh)) as (z & Hz & HR & Hit & Hn) end.
    destruct (it 0 (snd h)) as [w r], (bs 0 (snd h')) as [v r']. cbn in HR, Hit, Hn.
    pose proof (simh_world x z h h' w v Hh Hz HR) as Hh'. eapply out_mono; [exact Hz|].
    destruct Hit as [|b0 c0 Hb].
    + eapply sim_bind; [apply sim_run_builder; mleaf|]. intros. mstep.
    + apply sim_emit; [done|]. constructor.
      assert (sim_items z (Items (Some b0) (fun n => it (S n))) (Items (Some c0) (fun n => bs (S n)))).
      { constructor; [by constructor|]. by apply Hn. }
      destruct c; ms.
  - eapply sim_on_ok; [apply (m_sk _ _ He); eassumption|intros; ms|].
    intros y k k' u u' [ev|] Hy Hk Hu; [|mstep]. destruct ev; mstep.
Qed.

Lemma run_sim n : SimE (wrun n) (wrun n).
Proof.
  induction n as [|n IH]; split; intros; cbn [wrun wne wsk wdr wco].
  1-4: constructor.
  - by apply sim_ne_body.
  - unfold wsk_body. eapply sim_bind; [apply (m_ne _ _ IH); eassumption|].
    intros y k k' [u r] [u' r'] Hy Hk [Hu Hr]. cbn in Hu, Hr. subst r'.
    destruct r as [[[]|]|]; try (apply sim_now; [done|by split]). by apply (m_sk _ _ IH).
  - unfold wdr_body. eapply sim_bind; [apply (m_ne _ _ IH); eassumption|].
    intros y k k' [u r] [u' r'] Hy Hk [Hu Hr]. cbn in Hu, Hr. subst r'.
    destruct r as [[]|]; try (apply sim_now; [done|split; [ms|done]]). by apply (m_dr _ _ IH).
  - unfold wco_body. eapply sim_bind; [apply (m_sk _ _ IH); eassumption|].
    intros y k k' [u r] [u' r'] Hy Hk [Hu Hr]. cbn in Hu, Hr. subst r'.
    destruct r as [[]|]; try (by apply sim_now). by apply (m_co _ _ IH).
Qed.

Lemma sim_transform n evs x b c w v : SinceCalls le R x (b w) (c v) ->
  sim_out (fun _ => eq) x (wtransform n evs b w) (wtransform n evs c v).
Proof.
  intros H. unfold wtransform, run_builder. cbn [fst snd].
  destruct H as [x z w' v' p q Hz HR Hp]. eapply sim_bind.
  - apply (made_out _ z); [done|]. apply sim_build; [exact Hp| |constructor]. split; [|exact HR].
    intros l. cbn. rewrite !lookup_empty. constructor.
  - intros. by apply (m_co _ _ (run_sim n)).
Qed.
End Time.
