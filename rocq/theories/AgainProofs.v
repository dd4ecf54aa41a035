(** Proofs for C74: no stream given as contents is asked again after its end. *)
From Coq Require Import String ZArith Lia.
From stdpp Require Import gmap.
From Verif Require Import Text Event Input Parse Selector Machine MachineState MachineAgain.
From Verif Require Import SpecTransform SpecState SpecStop StateProofs StateProofs2 StateProofs4 StopProofs2.
Local Open Scope nat_scope.

Section Again.
Context {W : Type}.

(** Streams given as contents occur only where they are used up: under [Combine] and
    [Fallible], which let go of them when they end ([ok true]). *)
Inductive ok : bool -> wstrm W -> Prop :=
| K_template c evs i : ok c (WSTemplate evs i)
| K_user c evs stop : ok c (WSUser evs stop)
| K_live f : ok true (WSLive (Some f))
| K_content c d : ok c (WSContent d)
| K_shared c l : ok c (WSShared l)
| K_fallible_none c : ok c (WSFallible None)
| K_fallible_ok c s : ok true s -> ok c (WSFallible (Some (WFStart (inl s))))
| K_fallible_err c e : ok c (WSFallible (Some (WFStart (inr e))))
| K_fallible_emit c s : ok true s -> ok c (WSFallible (Some (WFEmit s)))
| K_expand_none c : ok c (WSExpand None)
| K_expand_start c s : ok false s -> ok c (WSExpand (Some (WXStart s)))
| K_expand_stream c s : ok false s -> ok c (WSExpand (Some (WXEmitStream s)))
| K_expand_close c tag : ok c (WSExpand (Some (WXEmitClosingTag tag)))
| K_peek c s b : ok false s -> ok c (WSPeek s b)
| K_combine_none c : ok c (WSCombine None)
| K_combine_first c s t : ok true s -> ok true t -> ok c (WSCombine (Some (WCmbFirst s t)))
| K_combine_second c s : ok true s -> ok c (WSCombine (Some (WCmbSecond s)))
| K_remove c s : ok false s -> ok c (WSRemove s)
| K_single_none c : ok c (WSSingle None)
| K_single_start c ev s : ok false s -> ok c (WSSingle (Some (WSEStart ev s)))
| K_single_until c tag s level : ok false s -> ok c (WSSingle (Some (WSEUntilClose tag s level)))
| K_select_none c l m b k d : ok c (WSSelect l m b k d None)
| K_select_scan c l m b k d n : ok c (WSSelect l m b k d (Some (WSelScanning n)))
| K_select_active c l m b k d n s : ok false s -> ok c (WSSelect l m b k d (Some (WSelActive n s)))
| K_once_none c l : ok c (WSSelectOnce l None)
| K_once_scan c l m b d n : ok c (WSSelectOnce l (Some (WSelOScanning m b d n)))
| K_once_active c l s : ok false s -> ok c (WSSelectOnce l (Some (WSelOActive s)))
| K_once_pass c l : ok c (WSSelectOnce l (Some WSelOPassthrough))
| K_sc_none c : ok c (WSSelectContent None)
| K_sc_open c s b : ok false s -> ok_cb b -> ok c (WSSelectContent (Some (WSCOpen s b)))
| K_sc_content c l s tag : ok false s -> ok c (WSSelectContent (Some (WSCContent l s tag)))
| K_sc_close c l tag : ok c (WSSelectContent (Some (WSCClose l tag)))
| K_cc c st : ok c (WSCurrentContent st)
| K_either c b s : ok false s -> ok c (WSApplyEither b s)
| K_ta_none c : ok c (WSTemplateApply None)
| K_ta_collect c s f : ok false s -> ok c (WSTemplateApply (Some (WTACollect s f)))
| K_ta_emit c evs i : ok c (WSTemplateApply (Some (WTAEmit evs i)))
| K_repeat_none c : ok c (WSRepeat None)
| K_repeat_collect c s i : ok false s -> ok c (WSRepeat (Some (WRCollect s i)))
| K_repeat_next c t i : ok c (WSRepeat (Some (WRNext t i)))
| K_repeat_emit c t s i : ok false s -> ok c (WSRepeat (Some (WREmit t s i)))
| K_roe_none c : ok c (WSRepeatOrElse None)
| K_roe_start c b s it o : ok false s -> ok c (WSRepeatOrElse (Some (WROEStart b s it o)))
| K_roe_fallback c s : ok false s -> ok c (WSRepeatOrElse (Some (WROEFallback s)))
| K_roe_repeat c s : ok false s -> ok c (WSRepeatOrElse (Some (WROERepeat s)))
| K_attr_none c : ok c (WSAttr None)
| K_attr_start c s a : ok false s -> ok c (WSAttr (Some (WAStart s a)))
| K_attr_emit c s : ok false s -> ok c (WSAttr (Some (WAEmit s)))
with ok_cb : @wcontent_builder W -> Prop :=
| KB_user b : ok_cb (WCBUser b)
| KB_remove : ok_cb WCBRemove
| KB_replace n : ok true n -> ok_cb (WCBReplace n)
| KB_append n : ok true n -> ok_cb (WCBAppend n)
| KB_prepend n : ok true n -> ok_cb (WCBPrepend n)
| KB_select d m b : ok_cb (WCBSelect d m b)
| KB_select_once d m b : ok_cb (WCBSelectOnce d m b)
| KB_repeat i : ok_cb (WCBRepeat i).

Lemma ok_up s : ok false s -> ok true s.
Proof. inversion 1; by constructor. Qed.
Lemma ok_any c s : ok false s -> ok c s.
Proof. destruct c; [apply ok_up|done]. Qed.

Definition okh (h : wheap W) : Prop := forall l s, fst h !! l = Some (WCell s) -> ok false s.
Lemma okh_insert m w w' l s : okh (m, w) -> ok false s -> okh (<[l := WCell s]> m, w').
Proof.
  intros Hh Hs l' s' E. cbn in E. destruct (decide (l = l')) as [<-|Hl].
  - rewrite lookup_insert in E. by inversion E; subst.
  - rewrite lookup_insert_ne in E by done. exact (Hh l' s' E).
Qed.
Lemma okh_borrow m w w' l : okh (m, w) -> okh (<[l := WBorrowed]> m, w').
Proof.
  intros Hh l' s' E. cbn in E. destruct (decide (l = l')) as [<-|Hl].
  - by rewrite lookup_insert in E.
  - rewrite lookup_insert_ne in E by done. exact (Hh l' s' E).
Qed.
Lemma okh_world h w : okh h -> okh (fst h, w).
Proof. done. Qed.

(** ** Building *)

Definition good (o : wout W (wstrm W)) : Prop :=
  match o with WDone h s => okh h /\ ok false s | _ => True end.

Lemma good_bind o k : good o -> (forall h s, okh h -> ok false s -> good (k h s)) ->
  good (wbind o k).
Proof. destruct o; cbn; [done|done|]. intros [??] Hk. by apply Hk. Qed.

Lemma ok_into_stream c : ok true (winto_stream (W:=W) c).
Proof. revert c. fix IH 1. intros [evs|d|v|s|z|evs stop|[c|e]]; cbn; constructor. apply IH. Qed.
Lemma ok_content_stream (c : wcontent W) : ok true (wcontent_stream c).
Proof. induction c; cbn; [apply ok_into_stream|constructor|by constructor]. Qed.

Lemma good_select_new h s m b d : okh h -> ok false s ->
  okh (fst (wselect_new h s m b d)) /\ ok false (snd (wselect_new h s m b d)).
Proof.
  intros Hh Hs. destruct h as [m' w]. cbn. split; [|constructor]. by eapply okh_insert.
Qed.
Lemma good_select_once_new h s m b d : okh h -> ok false s ->
  okh (fst (wselect_once_new h s m b d)) /\ ok false (snd (wselect_once_new h s m b d)).
Proof.
  intros Hh Hs. destruct h as [m' w]. cbn. split; [|constructor]. by eapply okh_insert.
Qed.
Lemma good_attr_new h s name c : okh h -> ok false s -> good (wattr_new h s name c).
Proof.
  intros Hh Hs. unfold wattr_new. destruct name as [name|e]; [destruct (c name)|]; cbn; try done.
  - split; [done|]. by repeat constructor.
  - split; [done|]. constructor.
Qed.

Lemma good_build_op : forall o h s, okh h -> ok false s -> good (wbuild_op o h s).
Proof.
  fix IH 1. intros o h s Hh Hs.
  assert (forall p h s, okh h -> ok false s -> good (wbuild_fix p h s)) as IHp.
  { fix IHp 1. intros [|a p] k t Hk Ht; cbn; [done|].
    apply good_bind; [exact (IH a k t Hk Ht)|]. intros. by apply IHp. }
  pose proof ok_content_stream as Hc. pose proof (ok_up s Hs) as Hs'.
  destruct o; cbn [wbuild_op]; fold (@wbuild_fix W).
  all: try (by apply IHp).
  all: try (by apply good_attr_new).
  all: try (split; [done|]; repeat first [assumption | apply Hc | progress constructor]; fail).
  - apply good_bind; [by apply IHp|]. intros. split; [done|]. by constructor.
  - destruct sel as [m|e]; [|by (split; [|constructor])].
    pose proof (good_select_new h s m b direct Hh Hs) as [A B].
    destruct (wselect_new _ _ _ _ _). split; [done|]. constructor. by apply ok_up.
  - destruct sel as [m|e]; [|by (split; [|constructor])].
    pose proof (good_select_once_new h s m b direct Hh Hs) as [A B].
    destruct (wselect_once_new _ _ _ _ _). split; [done|]. constructor. by apply ok_up.
  - destruct sel as [m|e]; (split; [done|]); repeat constructor; done.
  - destruct sel as [m|e]; (split; [done|]); repeat constructor; done.
Qed.
Lemma good_build p : forall h s, okh h -> ok false s -> good (wbuild p h s).
Proof.
  induction p as [|o p IH]; intros h s Hh Hs; cbn; [done|].
  apply good_bind; [by apply good_build_op|]. auto.
Qed.
Lemma good_run_builder b h s : okh h -> ok false s -> good (run_builder b h s).
Proof. intros Hh Hs. unfold run_builder. destruct (b _). by apply good_build. Qed.
Lemma good_build_content b h s : ok_cb b -> okh h -> ok false s -> good (wbuild_content b h s).
Proof.
  intros Hb Hh Hs. pose proof (ok_up s Hs) as Hs'. destruct Hb; cbn [wbuild_content].
  - by apply good_run_builder.
  - split; [done|]. by constructor.
  - split; [done|]. constructor; [done|]. by constructor.
  - split; [done|]. by constructor.
  - split; [done|]. by constructor.
  - pose proof (good_select_new h s m b d Hh Hs) as [A B]. by destruct (wselect_new _ _ _ _ _).
  - pose proof (good_select_once_new h s m b d Hh Hs) as [A B]. by destruct (wselect_once_new _ _ _ _ _).
  - split; [done|]. by constructor.
Qed.

(** ** Running *)

(** Two steps give the same, except that a stream given as contents may be left different
    once it has ended or failed. *)
Inductive agree (c : bool) : wstep_out W -> wstep_out W -> Prop :=
| G_fuel : agree c WOutOfFuel WOutOfFuel
| G_panic : agree c WPanicked WPanicked
| G_same h s r : okh h -> ok c s -> agree c (WDone h (s, r)) (WDone h (s, r))
| G_over h s s' r : okh h -> c = true -> (forall ev, r <> inl (Some ev)) ->
    agree c (WDone h (s, r)) (WDone h (s', r)).

Inductive same {A} : wout W A -> wout W A -> Prop :=
| S_fuel : same WOutOfFuel WOutOfFuel
| S_panic : same WPanicked WPanicked
| S_done h a : okh h -> same (WDone h a) (WDone h a).

Lemma agree_up c o o' : agree false o o' -> agree c o o'.
Proof. inversion 1; subst; try constructor; auto using ok_any. done. Qed.

Lemma agree_build c o k : good o -> (forall h s, okh h -> ok false s -> agree c (k h s) (k h s)) ->
  agree c (wbind o k) (wbind o k).
Proof. destruct o; cbn; [constructor|constructor|]. intros [??] Hk. by apply Hk. Qed.
Lemma agree_same {A} c (o o' : wout W A) k k' : same o o' ->
  (forall h a, okh h -> agree c (k h a) (k' h a)) -> agree c (wbind o k) (wbind o' k').
Proof. intros [] Hk; cbn; [constructor|constructor|]. by apply Hk. Qed.

(** a part that is a stream of the library *)
Lemma agree_ok c o o' d k k' : agree false o o' -> (forall s, ok false s -> ok c (d s)) ->
  (forall h s r, okh h -> ok false s -> agree c (k h s r) (k' h s r)) ->
  agree c (won_ok o d k) (won_ok o' d k').
Proof.
  intros Ho Hd Hk. unfold won_ok. inversion Ho; subst; cbn; try constructor; [|done].
  destruct r; [by apply Hk|]. constructor; auto.
Qed.
(** a part that may be a stream given as contents *)
Lemma agree_ok_true c o o' d k k' : agree true o o' -> ok c d ->
  (forall h s ev, okh h -> ok true s -> agree c (k h s (Some ev)) (k' h s (Some ev))) ->
  (forall h s s', okh h -> agree c (k h s None) (k' h s' None)) ->
  agree c (won_ok o (fun _ => d) k) (won_ok o' (fun _ => d) k').
Proof.
  intros Ho Hd Hk Hn. unfold won_ok. inversion Ho as [| |h s r Hh Hs|h s s' r Hh _ Hr]; subst; cbn.
  - constructor.
  - constructor.
  - destruct r as [[ev|]|e]; [by apply Hk|by apply Hn|]. by constructor.
  - destruct r as [[ev|]|e]; [by destruct (Hr ev)|by apply Hn|]. by constructor.
Qed.
Lemma agree_emit c h s ev : okh h -> ok c s -> agree c (wemit h s ev) (wemit h s ev).
Proof. by constructor. Qed.
Lemma agree_finish c h s : okh h -> ok c s -> agree c (wfinish h s) (wfinish h s).
Proof. by constructor. Qed.
Lemma agree_fail c h s e : okh h -> ok c s -> agree c (wfail h s e) (wfail h s e).
Proof. by constructor. Qed.
Lemma agree_pass c o o' d k : agree false o o' -> ok c d -> (forall s, ok false s -> ok c (k s)) ->
  agree c (wpassthrough o d k) (wpassthrough o' d k).
Proof.
  intros Ho Hd Hk. unfold wpassthrough. apply agree_ok; [done|done|].
  intros h s [ev|] Hh Hs; [apply agree_emit|apply agree_finish]; auto.
Qed.
Lemma agree_pass_true c o o' d k : agree true o o' -> ok c d -> (forall s, ok true s -> ok c (k s)) ->
  agree c (wpassthrough o d k) (wpassthrough o' d k).
Proof.
  intros Ho Hd Hk. unfold wpassthrough. apply agree_ok_true; [done|done| |].
  - intros. apply agree_emit; auto.
  - intros. by apply agree_finish.
Qed.
Lemma agree_with_cell c h l f f' : okh h ->
  (forall h s, okh h -> ok false s -> agree false (f h s) (f' h s)) ->
  agree c (wwith_cell h l f) (wwith_cell h l f').
Proof.
  intros Hh Hf. unfold wwith_cell. destruct h as [m w]. cbn [fst snd].
  destruct (m !! l) as [[s|]|] eqn:E; try constructor.
  pose proof (Hf (<[l := WBorrowed]> m, w) s) as G.
  destruct G as [| |k t r Hk Ht|]; cbn; try constructor; try done.
  - by eapply okh_borrow.
  - exact (Hh l s E).
  - destruct k. by eapply okh_insert.
  - constructor.
Qed.

Record Agrees (e e' : wengine W) : Prop :=
  { g_ne : forall c h s, okh h -> ok c s -> agree c (wne e h s) (wne e' h s);
    g_sk : forall c h s, okh h -> ok c s -> agree c (wsk e h s) (wsk e' h s);
    g_dr : forall c h s, okh h -> ok false s -> agree c (wdr e h s) (wdr e' h s);
    g_co : forall h s acc, okh h -> ok false s -> same (wco e h s acc) (wco e' h s acc) }.

Lemma agree_peek e e' h s : Agrees e e' -> okh h -> ok false s ->
  agree false (wpeek e h s) (wpeek e' h s).
Proof.
  intros He Hh Hs. destruct s; cbn [wpeek]; try constructor. inversion Hs; subst.
  destruct buffered as [ev|]; [by constructor|].
  apply agree_ok; [by apply (g_sk _ _ He)|by constructor|]. intros. constructor; [done|]. by constructor.
Qed.

Ltac gs := first [assumption | constructor; gs].
Ltac gstep := first
  [ apply agree_emit; [assumption|gs]
  | apply agree_finish; [assumption|gs]
  | apply agree_fail; [assumption|gs] ].

Lemma agree_ne_body e e' c h s : Agrees e e' -> okh h -> ok c s ->
  agree c (ane_body e h s) (wne_body e' h s).
Proof.
  intros He Hh Hs.
  assert (forall l, agree false (wne e h (WSShared l)) (wne e' h (WSShared l))) as Hne
    by (intros; apply (g_ne _ _ He); [done|constructor]).
  assert (forall l, agree false (wsk e h (WSShared l)) (wsk e' h (WSShared l))) as Hsk
    by (intros; apply (g_sk _ _ He); [done|constructor]).
  inversion Hs; subst; cbn [ane_body wne_body].
  all: try (by gstep).
  all: try (by (apply agree_pass; [first [apply (g_ne _ _ He); gs | apply (g_sk _ _ He); gs | apply Hne]|gs
                                  |intros; gs])).
  all: try (by (apply agree_pass_true; [first [apply (g_ne _ _ He); gs | apply (g_sk _ _ He); gs]|gs
                                  |intros; gs])).
  - destruct (nth_error evs i); gstep.
  - destruct evs, stop; gstep.
  - destruct (f 0 (snd h)) as [w [[ev|]|err]].
    + apply G_same; [done|constructor].
    + by apply G_over.
    + by apply G_over.
  - destruct d; gstep.
  - apply agree_with_cell; [done|]. intros. by apply (g_ne _ _ He).
  - apply agree_ok; [by apply (g_sk _ _ He)|intros; gs|].
    intros k t [[]|] Hk Ht; gstep.
  - destruct b; [gstep|]. apply agree_ok; [by apply (g_sk _ _ He)|intros; gs|].
    intros. constructor; [done|gs].
  - apply agree_ok_true; [by apply (g_sk _ _ He)|gs| |]; intros; gstep.
  - by apply (g_dr _ _ He).
  - destruct ev; gstep.
  - apply agree_ok; [by apply (g_ne _ _ He)|intros; gs|].
    intros k u [ev|] Hk Hu; [|gstep].
    destruct (is_opening_tag_for ev tag); [gstep|]. destruct (is_closing_tag_for ev tag); [|gstep].
    destruct level; gstep.
  - apply agree_ok; [apply Hsk|intros; gs|].
    intros k' u [ev|] Hk _; [|gstep].
    destruct (include d n && matches m ev).
    + apply agree_build; [apply good_run_builder; [done|gs]|]. intros. gstep.
    + destruct (adjust n ev); gstep.
  - apply agree_ok; [by apply (g_ne _ _ He)|intros; gs|].
    intros k' u [ev|] Hk Hu; gstep.
  - apply agree_ok; [apply Hsk|intros; gs|].
    intros k' u [ev|] Hk _; [|gstep].
    destruct (include d n && matches m ev).
    + apply agree_build; [apply good_run_builder; [done|gs]|]. intros. gstep.
    + destruct (adjust n ev); gstep.
  - apply agree_ok; [by apply (g_ne _ _ He)|intros; gs|].
    intros k' u [ev|] Hk Hu; gstep.
  - apply agree_ok; [apply (g_sk _ _ He); [done|gs]|intros; gs|].
    intros k u [ev|] Hk Hu; [|gstep]. destruct ev; try gstep. cbv zeta.
    apply agree_build.
    + apply good_build_content; [done| |gs]. destruct k. eapply okh_insert; [exact Hk|gs].
    + intros. gstep.
  - apply agree_ok; [by apply (g_ne _ _ He)|intros; gs|].
    intros k' u [ev|] Hk Hu; gstep.
  - apply agree_ok; [apply Hsk|intros; gs|].
    intros k u [ev|] Hk Hu; [|gstep]. destruct ev; try gstep.
    destruct (ident_eqb _ _); gstep.
  - destruct st as [[[tag l] level]|]; [|gstep]. cbv zeta.
    match goal with |- context [negb _] =>
      assert (forall k, okh k -> agree c
        (won_ok (wne e k (WSShared l)) (fun _ => WSCurrentContent None) (fun h _ r =>
          match r with
          | None => wfail h (WSCurrentContent None) (missing_close tag)
          | Some ev =>
              match adjust level ev with
              | inl level => wemit h (WSCurrentContent (Some (tag, l, level))) ev
              | inr _ => wfail h (WSCurrentContent None) (missing_close tag)
              end
          end))
        (won_ok (wne e' k (WSShared l)) (fun _ => WSCurrentContent None) (fun h _ r =>
          match r with
          | None => wfail h (WSCurrentContent None) (missing_close tag)
          | Some ev =>
              match adjust level ev with
              | inl level => wemit h (WSCurrentContent (Some (tag, l, level))) ev
              | inr _ => wfail h (WSCurrentContent None) (missing_close tag)
              end
          end))) as Hnext end.
    { intros k Hk. apply agree_ok; [apply (g_ne _ _ He); [done|gs]|intros; gs|].
      intros j u [ev|] Hj Hu; [|gstep]. destruct (adjust level ev); gstep. }
    destruct (negb (Nat.eqb level 0)); [by apply Hnext|].
    apply agree_ok; [apply agree_with_cell; [done|intros; by apply agree_peek]|intros; gs|].
    intros k u [ev|] Hk Hu; [|gstep].
    destruct (is_closing_tag_for ev tag); [gstep|by apply Hnext].
  - match goal with H : ok false ?s |- _ => destruct (g_ne _ _ He false h s Hh H) end;
      cbn; try constructor; try done. gs.
  - eapply agree_same; [by apply (g_co _ _ He)|].
    intros k [t|err] Hk; [|gstep]. destruct (f (snd k) t) as [w [a|err]].
    + apply agree_emit; [done|gs].
    + apply agree_fail; [done|gs].
  - apply agree_pass; [apply (g_ne _ _ He); [done|gs]|gs|]. intros u Hu.
    destruct u; try gs; by apply ok_any.
  - eapply agree_same; [by apply (g_co _ _ He)|]. intros k [a|err] Hk; gstep.
  - destruct (next_item i (snd h)) as [[w j] [b|]].
    + apply agree_build; [apply good_run_builder; [done|gs]|]. intros. gstep.
    + apply agree_finish; [done|gs].
  - apply agree_ok; [by apply (g_ne _ _ He)|intros; gs|].
    intros k' u [ev|] Hk Hu; gstep.
  - destruct (it 0 (snd h)) as [w [item|]].
    + cbv zeta. apply agree_emit; [done|]. constructor. destruct b; gs.
    + apply agree_build; [by apply good_run_builder|]. intros. gstep.
  - apply agree_ok; [by apply (g_sk _ _ He)|intros; gs|].
    intros k u [[]|] Hk Hu; gstep.
Qed.

Lemma run_agrees n : Agrees (arun n) (wrun n).
Proof.
  induction n as [|n IH]; split; intros; cbn [arun wrun wne wsk wdr wco].
  1-4: constructor.
  - by apply agree_ne_body.
  - unfold wsk_body. destruct (g_ne _ _ IH c h s H H0) as [| |k t r Hk Ht|k t t' r Hk Hc Hr]; cbn;
      try constructor.
    + destruct r as [[[]|]|]; try (by constructor). by apply (g_sk _ _ IH).
    + destruct r as [[ev|]|]; [by destruct (Hr ev)|by apply G_over..].
  - unfold wdr_body. destruct (g_ne _ _ IH false h s H H0) as [| |k t r Hk Ht|]; cbn; try constructor; [|done].
    destruct r as [[ev|]|]; [by apply (g_dr _ _ IH)|constructor; [done|gs]..].
  - unfold wco_body. destruct (g_sk _ _ IH false h s H H0) as [| |k t r Hk Ht|]; cbn; try constructor; [|done].
    destruct r as [[ev|]|]; [by apply (g_co _ _ IH)|by constructor..].
Qed.

Lemma again_transform n evs b (w : W) : atransform n evs b w = wtransform n evs b w.
Proof.
  unfold atransform, wtransform.
  pose proof (good_run_builder b (∅, w) (WSTemplate evs 0)) as G.
  destruct (run_builder b (∅, w) (WSTemplate evs 0)) as [| |h s]; cbn; [done..|].
  destruct G as [Hh Hs]; [intros l s' E; cbn in E; by rewrite lookup_empty in E|constructor|].
  by destruct (g_co _ _ (run_agrees n) h s [] Hh Hs).
Qed.
End Again.

Lemma again_results (W : Type) N n evs (b : once W) w h r :
  atransform n evs b w = WDone h r -> exists p0, Possible N (snd (b w)) p0 /\ Gives evs p0 r.
Proof.
  rewrite again_transform. intros E. destruct h as [h w']. eapply (unroll_gives N _ _ _ _ w'). by exists n, h.
Qed.
Lemma again_returns (W : Type) evs (b : once W) w : Ending (snd (b w)) ->
  exists n h r, atransform n evs b w = WDone h r.
Proof.
  intros H. destruct (ending_returns evs b w H) as (r & w' & (n & h & E) & _).
  exists n, (h, w'), r. by rewrite again_transform.
Qed.
