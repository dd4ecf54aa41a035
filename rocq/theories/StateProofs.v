(** Proofs for C67, part 1: the machine does not look at the builder of a selection for
    invocations that have been made. *)
From Coq Require Import String ZArith Lia.
From stdpp Require Import gmap.
From Verif Require Import Text Event Input Parse Selector Machine.
Local Open Scope nat_scope.

(** ** Streams that differ in past invocations only *)

Inductive eqv : strm -> strm -> Prop :=
| E_template evs i : eqv (STemplate evs i) (STemplate evs i)
| E_user evs stop : eqv (SUser evs stop) (SUser evs stop)
| E_content d : eqv (SContent d) (SContent d)
| E_shared l : eqv (SShared l) (SShared l)
| E_fallible_none : eqv (SFallible None) (SFallible None)
| E_fallible_ok s s' : eqv s s' ->
    eqv (SFallible (Some (FStart (inl s)))) (SFallible (Some (FStart (inl s'))))
| E_fallible_err e : eqv (SFallible (Some (FStart (inr e)))) (SFallible (Some (FStart (inr e))))
| E_fallible_emit s s' : eqv s s' ->
    eqv (SFallible (Some (FEmit s))) (SFallible (Some (FEmit s')))
| E_expand_none : eqv (SExpand None) (SExpand None)
| E_expand_start s s' : eqv s s' ->
    eqv (SExpand (Some (XStart s))) (SExpand (Some (XStart s')))
| E_expand_stream s s' : eqv s s' ->
    eqv (SExpand (Some (XEmitStream s))) (SExpand (Some (XEmitStream s')))
| E_expand_close tag :
    eqv (SExpand (Some (XEmitClosingTag tag))) (SExpand (Some (XEmitClosingTag tag)))
| E_peek s s' b : eqv s s' -> eqv (SPeek s b) (SPeek s' b)
| E_combine_none : eqv (SCombine None) (SCombine None)
| E_combine_first s s' t t' : eqv s s' -> eqv t t' ->
    eqv (SCombine (Some (CmbFirst s t))) (SCombine (Some (CmbFirst s' t')))
| E_combine_second s s' : eqv s s' ->
    eqv (SCombine (Some (CmbSecond s))) (SCombine (Some (CmbSecond s')))
| E_remove s s' : eqv s s' -> eqv (SRemove s) (SRemove s')
| E_single_none : eqv (SSingle None) (SSingle None)
| E_single_start ev s s' : eqv s s' ->
    eqv (SSingle (Some (SEStart ev s))) (SSingle (Some (SEStart ev s')))
| E_single_until tag s s' level : eqv s s' ->
    eqv (SSingle (Some (SEUntilClose tag s level))) (SSingle (Some (SEUntilClose tag s' level)))
| E_select_none l m b b' calls direct : (forall i, calls <= i -> b i = b' i) ->
    eqv (SSelect l m b calls direct None) (SSelect l m b' calls direct None)
| E_select_scan l m b b' calls direct level : (forall i, calls <= i -> b i = b' i) ->
    eqv (SSelect l m b calls direct (Some (SelScanning level)))
        (SSelect l m b' calls direct (Some (SelScanning level)))
| E_select_active l m b b' calls direct level s s' :
    (forall i, calls <= i -> b i = b' i) -> eqv s s' ->
    eqv (SSelect l m b calls direct (Some (SelActive level s)))
        (SSelect l m b' calls direct (Some (SelActive level s')))
| E_once_none l : eqv (SSelectOnce l None) (SSelectOnce l None)
| E_once_scan l m p direct level :
    eqv (SSelectOnce l (Some (SelOScanning m p direct level)))
        (SSelectOnce l (Some (SelOScanning m p direct level)))
| E_once_active l s s' : eqv s s' ->
    eqv (SSelectOnce l (Some (SelOActive s))) (SSelectOnce l (Some (SelOActive s')))
| E_once_pass l :
    eqv (SSelectOnce l (Some SelOPassthrough)) (SSelectOnce l (Some SelOPassthrough))
| E_sc_none : eqv (SSelectContent None) (SSelectContent None)
| E_sc_open s s' b : eqv s s' ->
    eqv (SSelectContent (Some (SCOpen s b))) (SSelectContent (Some (SCOpen s' b)))
| E_sc_content l s s' tag : eqv s s' ->
    eqv (SSelectContent (Some (SCContent l s tag))) (SSelectContent (Some (SCContent l s' tag)))
| E_sc_close l tag :
    eqv (SSelectContent (Some (SCClose l tag))) (SSelectContent (Some (SCClose l tag)))
| E_cc st : eqv (SCurrentContent st) (SCurrentContent st)
| E_either first s s' : eqv s s' -> eqv (SApplyEither first s) (SApplyEither first s')
| E_ta_none : eqv (STemplateApply None) (STemplateApply None)
| E_ta_collect s s' f : eqv s s' ->
    eqv (STemplateApply (Some (TACollect s f))) (STemplateApply (Some (TACollect s' f)))
| E_ta_emit evs i :
    eqv (STemplateApply (Some (TAEmit evs i))) (STemplateApply (Some (TAEmit evs i)))
| E_repeat_none : eqv (SRepeat None) (SRepeat None)
| E_repeat_collect s s' bs : eqv s s' ->
    eqv (SRepeat (Some (RCollect s bs))) (SRepeat (Some (RCollect s' bs)))
| E_repeat_next t bs : eqv (SRepeat (Some (RNext t bs))) (SRepeat (Some (RNext t bs)))
| E_repeat_emit t s s' bs : eqv s s' ->
    eqv (SRepeat (Some (REmit t s bs))) (SRepeat (Some (REmit t s' bs)))
| E_roe_none : eqv (SRepeatOrElse None) (SRepeatOrElse None)
| E_roe_start c s s' bs p : eqv s s' ->
    eqv (SRepeatOrElse (Some (ROEStart c s bs p))) (SRepeatOrElse (Some (ROEStart c s' bs p)))
| E_roe_fallback s s' : eqv s s' ->
    eqv (SRepeatOrElse (Some (ROEFallback s))) (SRepeatOrElse (Some (ROEFallback s')))
| E_roe_repeat s s' : eqv s s' ->
    eqv (SRepeatOrElse (Some (ROERepeat s))) (SRepeatOrElse (Some (ROERepeat s')))
| E_attr_none : eqv (SAttr None) (SAttr None)
| E_attr_start s s' c : eqv s s' ->
    eqv (SAttr (Some (AStart s c))) (SAttr (Some (AStart s' c)))
| E_attr_emit s s' : eqv s s' ->
    eqv (SAttr (Some (AEmit s))) (SAttr (Some (AEmit s'))).

Lemma eqv_refl : forall s, eqv s s.
Proof.
  fix IH 1. intros s. destruct s as
    [ | | | | [[[s|]|s]|] | [[s|s|]|] | s | [[s t|s]|] | s | [[ |]|] | ? ? ? ? ? [[|? s]|]
    | ? [[|s|]|] | [[s|? s|]|] | | ? s | [[s|]|] | [[s|? ?|? s]|] | [[? s|s|s]|] | [[s|s]|]];
    constructor; auto.
Qed.

Inductive eqc : option cell -> option cell -> Prop :=
| EC_none : eqc None None
| EC_borrowed : eqc (Some Borrowed) (Some Borrowed)
| EC_cell s s' : eqv s s' -> eqc (Some (Cell s)) (Some (Cell s')).
Definition eqh (h h' : heap) : Prop := forall l, eqc (h !! l) (h' !! l).

Lemma eqc_refl c : eqc c c.
Proof. destruct c as [[s|]|]; constructor. apply eqv_refl. Qed.
Lemma eqh_refl h : eqh h h.
Proof. intros l. apply eqc_refl. Qed.
Lemma eqh_insert h h' l c c' : eqh h h' -> eqc (Some c) (Some c') ->
  eqh (<[l := c]> h) (<[l := c']> h').
Proof.
  intros Hh Hc k. destruct (decide (l = k)) as [->|Hn].
  - by rewrite !lookup_insert.
  - rewrite !lookup_insert_ne by done. apply Hh.
Qed.

(** ** Fresh locations depend on the domain only *)

Lemma fold_locs {A} (m : gmap loc A) :
  (forall l, is_Some (m !! l) ->
     (l < map_fold (fun l _ m => Pos.max (Pos.succ l) m) 1 m)%positive) /\
  (map_fold (fun l _ m => Pos.max (Pos.succ l) m) 1%positive m = 1%positive \/
   exists l, is_Some (m !! l) /\
     map_fold (fun l _ m => Pos.max (Pos.succ l) m) 1%positive m = Pos.succ l).
Proof.
  apply (map_fold_ind (fun n (m : gmap loc A) =>
    (forall l, is_Some (m !! l) -> (l < n)%positive) /\
    (n = 1%positive \/ exists l, is_Some (m !! l) /\ n = Pos.succ l))).
  - split; [|by left]. intros l [x Hx]. by rewrite lookup_empty in Hx.
  - intros l x m' n Hl [H1 H2]. split.
    + intros k Hk. destruct (decide (l = k)) as [->|Hne]; [lia|].
      rewrite lookup_insert_ne in Hk by done. specialize (H1 k Hk). lia.
    + right. destruct (Pos.max_spec (Pos.succ l) n) as [[Hlt ->]|[Hle ->]].
      * destruct H2 as [->|(k & Hk & ->)]; [lia|]. exists k. split; [|done].
        destruct (decide (l = k)) as [->|Hne]; [by rewrite lookup_insert|].
        by rewrite lookup_insert_ne.
      * exists l. by rewrite lookup_insert.
Qed.
Lemma fold_locs_eq {A B} (m : gmap loc A) (m' : gmap loc B) :
  (forall l, is_Some (m !! l) <-> is_Some (m' !! l)) ->
  map_fold (fun l _ m => Pos.max (Pos.succ l) m) 1%positive m =
  map_fold (fun l _ m => Pos.max (Pos.succ l) m) 1%positive m'.
Proof.
  intros Hd. destruct (fold_locs m) as [H1 H2], (fold_locs m') as [H1' H2'].
  destruct H2 as [E|(l & Hl & E)], H2' as [E'|(l' & Hl' & E')]; rewrite ?E, ?E' in *.
  - done.
  - apply Hd, H1 in Hl'. lia.
  - apply Hd, H1' in Hl. lia.
  - apply Hd, H1' in Hl. apply Hd, H1 in Hl'. lia.
Qed.
Lemma eqh_fresh h h' : eqh h h' -> fresh_loc h = fresh_loc h'.
Proof.
  intros Hh. apply fold_locs_eq. intros l. specialize (Hh l).
  inversion Hh; split; intros [? ?]; eauto; congruence.
Qed.

(** ** The machine *)

Inductive eqo {A} (R : A -> A -> Prop) : out A -> out A -> Prop :=
| EO_fuel : eqo R OutOfFuel OutOfFuel
| EO_panic : eqo R Panicked Panicked
| EO_done h h' a a' : eqh h h' -> R a a' -> eqo R (Done h a) (Done h' a').
Definition eqr {B} (x y : strm * B) : Prop := eqv x.1 y.1 /\ x.2 = y.2.

Lemma eqo_bind {A B} (R : A -> A -> Prop) (S : B -> B -> Prop) o o' k k' :
  eqo R o o' -> (forall h h' a a', eqh h h' -> R a a' -> eqo S (k h a) (k' h' a')) ->
  eqo S (obind o k) (obind o' k').
Proof. intros [] Hk; cbn; [constructor|constructor|]. by apply Hk. Qed.
Lemma eqo_on_ok o o' dead dead' k k' :
  eqo eqr o o' -> (forall s s', eqv s s' -> eqv (dead s) (dead' s')) ->
  (forall h h' s s' r, eqh h h' -> eqv s s' -> eqo eqr (k h s r) (k' h' s' r)) ->
  eqo eqr (on_ok o dead k) (on_ok o' dead' k').
Proof.
  intros Ho Hd Hk. unfold on_ok. eapply eqo_bind; [done|].
  intros h h' [s r] [s' r'] Hh [Hs Hr]. cbn in Hs, Hr. subst r'. destruct r as [r|e].
  - by apply Hk.
  - constructor; [done|]. split; cbn; auto.
Qed.
Lemma eqo_emit h h' s s' ev : eqh h h' -> eqv s s' -> eqo eqr (emit h s ev) (emit h' s' ev).
Proof. intros. constructor; [done|]. by split. Qed.
Lemma eqo_finish h h' s s' : eqh h h' -> eqv s s' -> eqo eqr (finish h s) (finish h' s').
Proof. intros. constructor; [done|]. by split. Qed.
Lemma eqo_fail h h' s s' e : eqh h h' -> eqv s s' -> eqo eqr (fail h s e) (fail h' s' e).
Proof. intros. constructor; [done|]. by split. Qed.
Lemma eqo_pass o o' dead dead' cont cont' :
  eqo eqr o o' -> eqv dead dead' -> (forall s s', eqv s s' -> eqv (cont s) (cont' s')) ->
  eqo eqr (passthrough o dead cont) (passthrough o' dead' cont').
Proof.
  intros Ho Hd Hc. unfold passthrough. eapply eqo_on_ok; [done|auto|].
  intros h h' s s' [ev|] Hh Hs; [apply eqo_emit|apply eqo_finish]; auto.
Qed.
Lemma eqo_cell h h' l f f' :
  eqh h h' -> (forall h h' s s', eqh h h' -> eqv s s' -> eqo eqr (f h s) (f' h' s')) ->
  eqo eqr (with_cell h l f) (with_cell h' l f').
Proof.
  intros Hh Hf. unfold with_cell. pose proof (Hh l) as Hl. inversion Hl as [| |s s' Hs E E'].
  - constructor.
  - constructor.
  - eapply eqo_bind.
    + apply Hf; [|done]. apply eqh_insert; [done|constructor].
    + intros k k' [t r] [t' r'] Hk [Ht Hr]. cbn in Ht, Hr. subst r'. constructor.
      * apply eqh_insert; [done|by constructor].
      * split; [constructor|done].
Qed.

Lemma eq_select_new h h' s s' m b direct :
  eqh h h' -> eqv s s' ->
  eqh (select_new h s m b direct).1 (select_new h' s' m b direct).1 /\
  eqv (select_new h s m b direct).2 (select_new h' s' m b direct).2.
Proof.
  intros Hh Hs. unfold select_new. cbn. rewrite <- (eqh_fresh h h' Hh). split.
  - apply eqh_insert; [done|by constructor].
  - by constructor.
Qed.
Lemma eq_select_once_new h h' s s' m b direct :
  eqh h h' -> eqv s s' ->
  eqh (select_once_new h s m b direct).1 (select_once_new h' s' m b direct).1 /\
  eqv (select_once_new h s m b direct).2 (select_once_new h' s' m b direct).2.
Proof.
  intros Hh Hs. unfold select_once_new. cbn. rewrite <- (eqh_fresh h h' Hh). split.
  - apply eqh_insert; [done|by constructor].
  - constructor.
Qed.
Lemma eqo_attr h h' s s' name c :
  eqh h h' -> eqv s s' -> eqo eqv (attr_new h s name c) (attr_new h' s' name c).
Proof.
  intros Hh Hs. unfold attr_new. destruct name as [name|e].
  - destruct (c name); constructor; [done|]. repeat constructor. done.
  - constructor; [done|constructor].
Qed.

Definition build_fix := fix build (p : pipeline) (h : heap) (s : strm) {struct p} : out strm :=
  match p with
  | [] => Done h s
  | o :: p => obind (build_op o h s) (fun h s => build p h s)
  end.
Lemma build_fix_eq p h s : build_fix p h s = build p h s.
Proof. revert h s. induction p as [|o p IH]; intros h s; cbn; [done|]. destruct (build_op o h s); cbn; auto. Qed.

Lemma eqo_build_op : forall o h h' s s', eqh h h' -> eqv s s' ->
  eqo eqv (build_op o h s) (build_op o h' s').
Proof.
  fix IH 1. intros o h h' s s' Hh Hs.
  assert (forall p h h' s s', eqh h h' -> eqv s s' -> eqo eqv (build_fix p h s) (build_fix p h' s'))
    as IHp.
  { induction p as [|o' p IHp]; intros k k' t t' Hk Ht; cbn.
    - by constructor.
    - eapply eqo_bind; [apply IH; done|]. auto. }
  destruct o; cbn [build_op]; fold build_fix.
  all: try (repeat first [apply eqo_attr; assumption | apply IHp; assumption
        | constructor; [assumption|] | progress constructor | assumption | apply eqv_refl]; fail).
  - eapply eqo_bind; [apply IHp; eassumption|]. intros. constructor; [done|]. by constructor.
  - destruct sel as [m|e]; [|constructor; [done|constructor]].
    pose proof (eq_select_new h h' s s' m b direct Hh Hs) as [H1 H2].
    destruct (select_new h s m b direct), (select_new h' s' m b direct).
    constructor; [done|]. by constructor.
  - destruct sel as [m|e]; [|constructor; [done|constructor]].
    pose proof (eq_select_once_new h h' s s' m p direct Hh Hs) as [H1 H2].
    destruct (select_once_new h s m p direct), (select_once_new h' s' m p direct).
    constructor; [done|]. by constructor.
  - destruct sel as [m|e]; (constructor; [done|]); repeat constructor. done.
  - destruct sel as [m|e]; (constructor; [done|]); repeat constructor. done.
Qed.
Lemma eqo_build p : forall h h' s s', eqh h h' -> eqv s s' ->
  eqo eqv (build p h s) (build p h' s').
Proof.
  induction p as [|o p IHp]; intros h h' s s' Hh Hs; cbn.
  - by constructor.
  - eapply eqo_bind; [apply eqo_build_op; done|]. auto.
Qed.
Lemma eqo_build_content b h h' s s' : eqh h h' -> eqv s s' ->
  eqo eqv (build_content b h s) (build_content b h' s').
Proof.
  intros Hh Hs. destruct b; cbn [build_content].
  - by apply eqo_build.
  - constructor; [done|]. by constructor.
  - constructor; [done|]. repeat constructor; [apply eqv_refl|done].
  - constructor; [done|]. repeat constructor; [done|apply eqv_refl].
  - constructor; [done|]. repeat constructor; [apply eqv_refl|done].
  - pose proof (eq_select_new h h' s s' m b direct Hh Hs) as [H1 H2].
    destruct (select_new h s m b direct), (select_new h' s' m b direct). by constructor.
  - pose proof (eq_select_once_new h h' s s' m p direct Hh Hs) as [H1 H2].
    destruct (select_once_new h s m p direct), (select_once_new h' s' m p direct). by constructor.
  - constructor; [done|]. by constructor.
Qed.

Record EqE (e : engine) : Prop :=
  { q_ne : forall h h' s s', eqh h h' -> eqv s s' -> eqo eqr (ne e h s) (ne e h' s');
    q_sk : forall h h' s s', eqh h h' -> eqv s s' -> eqo eqr (sk e h s) (sk e h' s');
    q_dr : forall h h' s s', eqh h h' -> eqv s s' -> eqo eqr (dr e h s) (dr e h' s');
    q_co : forall h h' s s' acc, eqh h h' -> eqv s s' ->
             eqo (=) (co e h s acc) (co e h' s' acc) }.

Lemma eqo_peek e h h' s s' : EqE e -> eqh h h' -> eqv s s' -> eqo eqr (peek e h s) (peek e h' s').
Proof.
  intros He Hh Hs. inversion Hs; subst; cbn [peek]; try constructor.
  destruct b as [ev|].
  - constructor; [done|]. split; [by constructor|done].
  - eapply eqo_on_ok; [apply (q_sk e He); eassumption| |].
    + intros. by constructor.
    + intros. constructor; [done|]. split; [by constructor|done].
Qed.

Ltac es := first [apply eqv_refl | assumption | constructor; assumption | constructor; es].
Ltac step := first
  [ apply eqo_emit; [assumption|es]
  | apply eqo_finish; [assumption|es]
  | apply eqo_fail; [assumption|es] ].

Lemma eqo_ne_body e h h' s s' : EqE e -> eqh h h' -> eqv s s' ->
  eqo eqr (ne_body e h s) (ne_body e h' s').
Proof.
  intros He Hh Hs.
  assert (forall l, eqo eqr (ne e h (SShared l)) (ne e h' (SShared l))) as Hne
    by (intros; apply (q_ne e He); [done|constructor]).
  assert (forall l, eqo eqr (sk e h (SShared l)) (sk e h' (SShared l))) as Hsk
    by (intros; apply (q_sk e He); [done|constructor]).
  inversion Hs; subst; cbn [ne_body].
  all: try (by step).
  all: try (by (apply eqo_pass; [first [apply (q_ne e He); es | apply (q_sk e He); es | apply Hne]|es
                                |intros; es])).
  - destruct (nth_error evs i); step.
  - destruct evs, stop; step.
  - destruct d; step.
  - apply eqo_cell; [done|]. apply (q_ne e He).
  - eapply eqo_on_ok; [apply (q_sk e He); eassumption|intros; es|].
    intros k k' t t' [[]|] Hk Ht; step.
  - destruct b; [step|]. eapply eqo_on_ok; [apply (q_sk e He); eassumption|intros; es|].
    intros. constructor; [done|]. split; [es|done].
  - eapply eqo_on_ok; [apply (q_sk e He); eassumption|intros; es|].
    intros k k' u u' [ev|] Hk Hu; step.
  - by apply (q_dr e He).
  - destruct ev; step.
  - eapply eqo_on_ok; [apply (q_ne e He); eassumption|intros; es|].
    intros k k' u u' [ev|] Hk Hu; [|step].
    destruct (is_opening_tag_for ev tag); [step|]. destruct (is_closing_tag_for ev tag); [|step].
    destruct level; step.
  - eapply eqo_on_ok; [apply Hsk|intros; es|].
    intros k k' u u' [ev|] Hk _; [|step].
    destruct (include direct level && matches m ev).
    + rewrite H by lia. eapply eqo_bind; [apply eqo_build; [done|es]|].
      intros k1 k1' a a' Hk1 Ha. apply eqo_emit; [done|]. constructor; [|done].
      intros i Hi. apply H. lia.
    + destruct (adjust level ev); step.
  - eapply eqo_on_ok; [apply (q_ne e He); eassumption|intros; es|].
    intros k k' u u' [ev|] Hk Hu; step.
  - eapply eqo_on_ok; [apply Hsk|intros; es|].
    intros k k' u u' [ev|] Hk _; [|step].
    destruct (include direct level && matches m ev).
    + eapply eqo_bind; [apply eqo_build; [done|es]|]. intros. step.
    + destruct (adjust level ev); step.
  - eapply eqo_on_ok; [apply (q_ne e He); eassumption|intros; es|].
    intros k k' u u' [ev|] Hk Hu; step.
  - eapply eqo_on_ok; [apply (q_sk e He); [done|es]|intros; es|].
    intros k k' u u' [ev|] Hk Hu; [|step]. destruct ev; try step.
    rewrite <- (eqh_fresh k k' Hk). eapply eqo_bind.
    + apply eqo_build_content; [|es]. apply eqh_insert; [done|]. constructor. es.
    + intros. step.
  - eapply eqo_on_ok; [apply (q_ne e He); eassumption|intros; es|].
    intros k k' u u' [ev|] Hk Hu; step.
  - eapply eqo_on_ok; [apply Hsk|intros; es|].
    intros k k' u u' [ev|] Hk Hu; [|step]. destruct ev; try step.
    destruct (ident_eqb _ _); step.
  - destruct st as [[[tag l] level]|]; [|step].
    assert (forall k k', eqh k k' ->
      eqo eqr
        (on_ok (ne e k (SShared l)) (fun _ => SCurrentContent None) (fun h _ r =>
          match r with
          | None => fail h (SCurrentContent None) (missing_close tag)
          | Some ev =>
              match adjust level ev with
              | inl level => emit h (SCurrentContent (Some (tag, l, level))) ev
              | inr _ => fail h (SCurrentContent None) (missing_close tag)
              end
          end))
        (on_ok (ne e k' (SShared l)) (fun _ => SCurrentContent None) (fun h _ r =>
          match r with
          | None => fail h (SCurrentContent None) (missing_close tag)
          | Some ev =>
              match adjust level ev with
              | inl level => emit h (SCurrentContent (Some (tag, l, level))) ev
              | inr _ => fail h (SCurrentContent None) (missing_close tag)
              end
          end))) as Hnext.
    { intros k k' Hk. eapply eqo_on_ok; [apply (q_ne e He); [done|es]|intros; es|].
      intros j j' u u' [ev|] Hj Hu; [|step]. destruct (adjust level ev); step. }
    cbv zeta. destruct (negb (Nat.eqb level 0)); [by apply Hnext|].
    eapply eqo_on_ok; [apply eqo_cell; [done|intros; by apply eqo_peek]|intros; es|].
    intros k k' u u' [ev|] Hk Hu; [|step].
    destruct (is_closing_tag_for ev tag); [step|by apply Hnext].
  - eapply eqo_bind; [apply (q_ne e He); eassumption|].
    intros k k' [u r] [u' r'] Hk [Hu Hr]. cbn in Hu, Hr. subst r'. constructor; [done|].
    split; [es|done].
  - eapply eqo_bind; [apply (q_co e He); eassumption|].
    intros k k' r r' Hk <-. destruct r as [t|err]; [|step]. destruct (f t); step.
  - apply eqo_pass; [apply (q_ne e He); es|es|]. intros u u' Hu.
    inversion Hu; subst; es.
  - eapply eqo_bind; [apply (q_co e He); eassumption|].
    intros k k' r r' Hk <-. destruct r as [t|err]; step.
  - destruct bs as [|p bs]; [step|].
    eapply eqo_bind; [apply eqo_build; [done|es]|]. intros. step.
  - eapply eqo_on_ok; [apply (q_ne e He); eassumption|intros; es|].
    intros k k' u u' [ev|] Hk Hu; step.
  - destruct bs as [|q bs].
    + eapply eqo_bind; [apply eqo_build; eassumption|]. intros. step.
    + apply eqo_emit; [done|]. constructor. destruct c; es.
  - eapply eqo_on_ok; [apply (q_sk e He); eassumption|intros; es|].
    intros k k' u u' [ev|] Hk Hu; [|step]. destruct ev; step.
Qed.

Lemma run_eqe n : EqE (run n).
Proof.
  induction n as [|n IH]; split; intros; cbn [run ne sk dr co].
  1-4: constructor.
  - by apply eqo_ne_body.
  - unfold sk_body. eapply eqo_bind; [apply (q_ne _ IH); eassumption|].
    intros k k' [u r] [u' r'] Hk [Hu Hr]. cbn in Hu, Hr. subst r'.
    destruct r as [[[]|]|]; try (constructor; [done|by split]). by apply (q_sk _ IH).
  - unfold dr_body. eapply eqo_bind; [apply (q_ne _ IH); eassumption|].
    intros k k' [u r] [u' r'] Hk [Hu Hr]. cbn in Hu, Hr. subst r'.
    destruct r as [[]|]; try (constructor; [done|split; [es|done]]). by apply (q_dr _ IH).
  - unfold co_body. eapply eqo_bind; [apply (q_sk _ IH); eassumption|].
    intros k k' [u r] [u' r'] Hk [Hu Hr]. cbn in Hu, Hr. subst r'.
    destruct r as [[]|]; try (by constructor). by apply (q_co _ IH).
Qed.
