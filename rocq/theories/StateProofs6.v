(** Proofs for C67, part 6: a closure that hands its state on from call to call. *)
From Coq Require Import String ZArith Lia.
From stdpp Require Import gmap.
From Verif Require Import Text Event Input Parse Selector Machine MachineState.
From Verif Require Import SpecTransform SpecState FuelProofs StateProofs StateProofs2 StateProofs3 StateProofs4.
Local Open Scope nat_scope.

(** Where the closure with state is: dropped, in the stream, or in the stream with one item
    of the iterator taken in advance; for a stream with state also: in the first or second part
    of a [Combine], or in the stream and over. *)
Inductive mark := Gone | Here | Ahead | Over | In1 (k : mark) | In2 (k : mark).
Global Instance mark_dec : EqDecision mark.
Proof. solve_decision. Defined.

Definition tok_items {W} (I : nat -> W -> Prop) (m : mark) (c : nat) (i : items W)
    (bs : list pipeline) : Prop :=
  match m, i with
  | Here, Items None it => HandsItems (fun k => I (c + k)) it bs
  | Ahead, Items (Some b) it =>
      exists p rest, bs = p :: rest /\ sim_once b p /\ HandsItems (fun k => I (c + k)) it rest
  | _, _ => False
  end.
(** [tok I k c s s0]: the closure was called [c] times and is where [k] says. *)
Inductive tok {W} (I : nat -> W -> Prop) : mark -> nat -> wstrm W -> strm -> Prop :=
| TK_pure c s s0 : sim s s0 -> tok I Gone c s s0
| TK_fall_start k c s s0 : k <> Gone -> tok I k c s s0 ->
    tok I k c (WSFallible (Some (WFStart (inl s)))) (SFallible (Some (FStart (inl s0))))
| TK_fall_emit k c s s0 : k <> Gone -> tok I k c s s0 ->
    tok I k c (WSFallible (Some (WFEmit s))) (SFallible (Some (FEmit s0)))
| TK_scan l m b b0 c direct level : HandsMany I b b0 ->
    tok I Here c (WSSelect l m b c direct (Some (WSelScanning level)))
                 (SSelect l m b0 c direct (Some (SelScanning level)))
| TK_active l m b b0 c direct level s s0 : HandsMany I b b0 -> sim s s0 ->
    tok I Here c (WSSelect l m b c direct (Some (WSelActive level s)))
                 (SSelect l m b0 c direct (Some (SelActive level s0)))
| TK_ended l m b b0 c direct :
    tok I Here c (WSSelect l m b c direct None) (SSelect l m b0 c direct None)
| TK_once l m b p direct level : HandsOnce I b p ->
    tok I Here 0 (WSSelectOnce l (Some (WSelOScanning m b direct level)))
                 (SSelectOnce l (Some (SelOScanning m p direct level)))
| TK_sc_open k c s s0 b b0 : sim s s0 -> tok_cb I k c b b0 ->
    tok I k c (WSSelectContent (Some (WSCOpen s b))) (SSelectContent (Some (SCOpen s0 b0)))
| TK_sc_content k c l s s0 tag : k <> Gone -> tok I k c s s0 ->
    tok I k c (WSSelectContent (Some (WSCContent l s tag))) (SSelectContent (Some (SCContent l s0 tag)))
| TK_ta s s0 f f0 : sim s s0 ->
    (forall w events, I 0 w -> exists w', f w events = (w', f0 events) /\ I 1 w') ->
    tok I Here 0 (WSTemplateApply (Some (WTACollect s f))) (STemplateApply (Some (TACollect s0 f0)))
| TK_collect k c s s0 i bs : sim s s0 -> tok_items I k c i bs ->
    tok I k c (WSRepeat (Some (WRCollect s i))) (SRepeat (Some (RCollect s0 bs)))
| TK_next k c t i bs : tok_items I k c i bs ->
    tok I k c (WSRepeat (Some (WRNext t i))) (SRepeat (Some (RNext t bs)))
| TK_emit k c t s s0 i bs : sim s s0 -> tok_items I k c i bs ->
    tok I k c (WSRepeat (Some (WREmit t s i))) (SRepeat (Some (REmit t s0 bs)))
| TK_roe_start contents s s0 it bs b p : sim s s0 -> HandsItems I it bs -> sim_once b p ->
    tok I Here 0 (WSRepeatOrElse (Some (WROEStart contents s it b)))
                 (SRepeatOrElse (Some (ROEStart contents s0 bs p)))
| TK_roe_repeat k c s s0 : k <> Gone -> tok I k c s s0 ->
    tok I k c (WSRepeatOrElse (Some (WROERepeat s))) (SRepeatOrElse (Some (ROERepeat s0)))
| TK_live f evs stop c : HandsEvents (fun k => I (c + k)) f evs stop ->
    tok I Here c (WSLive (Some f)) (SUser evs stop)
| TK_over c : tok I Over c (WSLive None) (SUser [] None)
| TK_in1 k c s s0 t t0 : k <> Gone -> tok I k c s s0 -> sim t t0 ->
    tok I (In1 k) c (WSCombine (Some (WCmbFirst s t))) (SCombine (Some (CmbFirst s0 t0)))
| TK_in2 k c s s0 t t0 : k <> Gone -> sim s s0 -> tok I k c t t0 ->
    tok I (In2 k) c (WSCombine (Some (WCmbFirst s t))) (SCombine (Some (CmbFirst s0 t0)))
| TK_second k c s s0 : k <> Gone -> tok I k c s s0 ->
    tok I k c (WSCombine (Some (WCmbSecond s))) (SCombine (Some (CmbSecond s0)))
with tok_cb {W} (I : nat -> W -> Prop) : mark -> nat -> wcontent_builder -> content_builder -> Prop :=
| TC_user b p : HandsOnce I b p -> tok_cb I Here 0 (WCBUser b) (CBUser p)
| TC_select direct m b b0 : HandsMany I b b0 -> tok_cb I Here 0 (WCBSelect direct m b) (CBSelect direct m b0)
| TC_once direct m b p : HandsOnce I b p ->
    tok_cb I Here 0 (WCBSelectOnce direct m b) (CBSelectOnce direct m p)
| TC_repeat k c i bs : tok_items I k c i bs -> tok_cb I k c (WCBRepeat i) (CBRepeat bs)
| TC_prepend k c s s0 : tok I k c s s0 -> k <> Gone -> tok_cb I k c (WCBPrepend s) (CBPrepend s0)
| TC_append k c s s0 : tok I k c s s0 -> k <> Gone -> tok_cb I k c (WCBAppend s) (CBAppend s0)
| TC_replace k c s s0 : tok I k c s s0 -> k <> Gone -> tok_cb I k c (WCBReplace s) (CBReplace s0).

Lemma tok_gone {W} (I : nat -> W -> Prop) c s s0 : tok I Gone c s s0 -> sim s s0.
Proof.
  intros H. inversion H; subst; try done;
    match goal with
    | Hi : tok_items _ Gone _ _ _ |- _ => by destruct i as [[]]
    | Hi : tok_cb _ Gone _ _ _ |- _ => inversion Hi; subst; try done; match goal with Hj : tok_items _ _ _ ?i _ |- _ => by destruct i as [[]] end
    end.
Qed.

Lemma sim_done {W A B} (w : W) (R : A -> B -> Prop) o h0 a0 : sim_out w R o (Done h0 a0) ->
  exists h a, o = WDone (h, w) a /\ sim_heap h h0 /\ R a a0.
Proof. intros H. inversion H. subst. eauto. Qed.

(** What a function of the stateless machine gives for a stream, one with state gives for
    every stream that hands its state on; the number of calls does not depend on the state. *)
Definition Top {A} (f0 : heap -> strm -> out (strm * A))
    (f : forall W : Type, wheap W -> wstrm W -> wout W (wstrm W * A)) : Prop :=
  forall h0 s0 m c h0' s0' r, f0 h0 s0 = Done h0' (s0', r) -> exists m' c',
  forall (W : Type) (I : nat -> W -> Prop) h w s, sim_heap h h0 -> tok I m c s s0 -> I c w ->
  exists h' w' s', f W (h, w) s = WDone (h', w') (s', r) /\ sim_heap h' h0' /\
                   tok I m' c' s' s0' /\ I c' w'.

Lemma top_pure {W} (I : nat -> W -> Prop) n h h0 h0' w s s0 s0' c r :
  ne (run n) h0 s0 = Done h0' (s0', r) -> sim_heap h h0 -> sim s s0 -> I c w ->
  exists h' w' s', wne (wrun n) (h, w) s = WDone (h', w') (s', r) /\ sim_heap h' h0' /\
                   tok I Gone c s' s0' /\ I c w'.
Proof.
  intros E Hh Hs Hw. pose proof (m_ne _ _ (run_sim n) h h0 w s s0 Hh Hs) as H. rewrite E in H.
  apply sim_done in H as (h' & [s' r'] & E' & Hh' & [Hs' Hr]). cbn in Hs', Hr. subst r'.
  exists h', w, s'. split_and!; [exact E'|done|by constructor|done].
Qed.

Ltac none := exists Gone, 0; intros ? ? ? ? ? _ Ht; inversion Ht; subst; done.
Ltac enter := intros W I h w s Hh Ht Hw; inversion Ht; subst; try done; clear Ht.
Ltac below H :=
  match goal with Hs : tok ?I _ _ ?s _, Hh : sim_heap ?h _, Hw : ?I _ ?w |- _ =>
    destruct (H _ I h w s Hh Hs Hw) as (h' & w' & s' & E' & Hh' & Ht' & Hw'); cbv beta in E'
  end.
Ltac done3 := do 3 eexists; split_and!; [reflexivity|done| |done].
(* a stream without state is run *)
Ltac pure_run L E :=
  match goal with Hh : sim_heap ?h _, Hs : sim ?s ?s0, Hw : ?I _ ?w |- _ =>
    let H := fresh in
    pose proof (L h _ w s _ Hh Hs) as H; rewrite E in H;
    let r' := fresh "r'" in
    apply sim_done in H as (h' & [s' r'] & E' & Hh' & [Hs' Hr]); cbn in Hs', Hr; subst r'
  end.
Ltac dead := constructor; constructor.

Lemma hands_shift {W} (I : nat -> W -> Prop) c it p bs :
  HandsItems (fun k => I (c + k)) it (p :: bs) ->
  HandsItems (fun k => I (S c + k)) (fun n => it (S n)) bs.
Proof.
  intros H k w Hk Hw. replace (S c + k) with (c + S k) in Hw by lia.
  destruct (H (S k) w) as (w' & E & Hw'); [simpl; lia|done|]. exists w'. split; [exact E|].
  by replace (S c + S k) with (c + S (S k)) by lia.
Qed.
Lemma hands_builder {W} (b : once W) p w w' h h0 h1 s s0 s1 :
  b w = (w', map stateless_op p) -> sim_heap h h0 -> sim s s0 -> build p h0 s0 = Done h1 s1 ->
  exists h' s', run_builder b (h, w) s = WDone (h', w') s' /\ sim_heap h' h1 /\ sim s' s1.
Proof.
  intros Eb Hh Hs E. unfold run_builder. cbn [fst snd]. rewrite Eb.
  pose proof (sim_build p h h0 w' s s0 Hh Hs) as H. rewrite E in H.
  apply sim_done in H as (h' & s' & E' & ? & ?). eauto.
Qed.
Lemma pure_builder {W} (b : once W) p w h h0 h1 s s0 s1 :
  sim_once b p -> sim_heap h h0 -> sim s s0 -> build p h0 s0 = Done h1 s1 ->
  exists h' s', run_builder b (h, w) s = WDone (h', w) s' /\ sim_heap h' h1 /\ sim s' s1.
Proof. intros Hb. apply hands_builder. apply Hb. Qed.

Lemma top_content b0 h0 s0 k c h0' s0' : build_content b0 h0 s0 = Done h0' s0' -> exists k' c',
  forall (W : Type) (I : nat -> W -> Prop) h w s b, sim_heap h h0 -> sim s s0 -> tok_cb I k c b b0 -> I c w ->
  exists h' w' s', wbuild_content b (h, w) s = WDone (h', w') s' /\ sim_heap h' h0' /\
                   tok I k' c' s' s0' /\ I c' w'.
Proof.
  intros E. destruct b0 as [p| |s1|s1|s1|direct m b0|direct m p|bs]; cbn [build_content] in E.
  2: exists Gone, 0; intros W I h w s b _ _ Hb; inversion Hb; fail.
  2: injection E as <- <-; exists (In1 k), c; intros W I h w s b Hh Hs Hb Hw; inversion Hb; subst;
    cbn; done3; constructor; [done|done|by constructor].
  2: injection E as <- <-; exists (In2 k), c; intros W I h w s b Hh Hs Hb Hw; inversion Hb; subst;
    cbn; done3; by constructor.
  2: injection E as <- <-; exists (In1 k), c; intros W I h w s b Hh Hs Hb Hw; inversion Hb; subst;
    cbn; done3; by constructor.
  - exists Gone, 1. intros W I h w s b Hh Hs Hb Hw. inversion Hb as [? ? Hp| | | | | |]. subst.
    destruct (Hp w Hw) as (w' & Ew & Hw'). cbn [wbuild_content].
    destruct (hands_builder _ _ _ _ _ _ _ _ _ _ Ew Hh Hs E) as (h2 & s2 & E2 & Hh2 & Hs2).
    rewrite E2. done3. by constructor.
  - injection E as <- <-. exists Here, c. intros W I h w s b' Hh Hs Hb Hw. inversion Hb. subst.
    cbn. rewrite (simh_fresh _ _ Hh). do 3 eexists; split_and!; [reflexivity| |by constructor|done].
    apply simh_insert; [done|by constructor].
  - injection E as <- <-. exists Here, c. intros W I h w s b' Hh Hs Hb Hw. inversion Hb. subst.
    cbn. rewrite (simh_fresh _ _ Hh). do 3 eexists; split_and!; [reflexivity| |by constructor|done].
    apply simh_insert; [done|by constructor].
  - injection E as <- <-. exists k, c. intros W I h w s b' Hh Hs Hb Hw. inversion Hb. subst.
    cbn. done3. by constructor.
Qed.

Lemma hands_events_shift {W} (I : nat -> W -> Prop) c f ev evs stop :
  HandsEvents (fun k => I (c + k)) f (ev :: evs) stop ->
  HandsEvents (fun k => I (S c + k)) (fun n => f (S n)) evs stop.
Proof.
  intros H k w Hk Hw. replace (S c + k) with (c + S k) in Hw by lia.
  destruct (H (S k) w) as (w' & E & Hw'); [simpl; lia|done|]. exists w'. split; [exact E|].
  by replace (S c + S k) with (c + S (S k)) by lia.
Qed.
Lemma top_ne_step n : Top (ne (run n)) (fun W => wne (wrun n)) ->
  Top (sk (run n)) (fun W => wsk (wrun n)) -> Top (ne (run (S n))) (fun W => wne (wrun (S n))).
Proof.
  intros IH IHs.
  intros h0 s0 k c h0' s0' r E. destruct (decide (k = Gone)) as [->|Hk].
  { exists Gone, c. intros W I h w s Hh Hs Hw. apply tok_gone in Hs. eauto using top_pure. }
  change (ne_body (run n) h0 s0 = Done h0' (s0', r)) in E.
  change (fun W : Type => wne (wrun (S n))) with (fun W : Type => @wne_body W (wrun n)). cbv beta.
  pose proof (fun W => @m_sk W _ _ (run_sim n)) as Psk.
  pose proof (fun W => @m_ne W _ _ (run_sim n)) as Pne.
  pose proof (fun W => @m_co W _ _ (run_sim n)) as Pco.
  destruct s0 as [|evs stop| | |[[[s0|]|s0]|]| | |[[s0 t0|s0]|]| | |l m b0 calls direct [[level|level s0]|]
                 |l [[m p direct level|s0|]|]|[[s0 b0|l s0 tag|]|]| | |[[s0 f0|]|]
                 |[[s0 bs|t bs|t s0 bs]|]|[[contents s0 bs p|s0|s0]|]|]; try none.
  (* User *)
  - destruct k; try none.
    + destruct evs as [|ev evs]; [destruct stop as [err|]|]; injection E as <- <- <-;
        [exists Over, (S c)|exists Over, (S c)|exists Here, (S c)]; enter;
        match goal with Hf : HandsEvents _ _ _ _ |- _ =>
          pose proof Hf as Hf0; destruct (Hf0 0 w) as (w' & Ew & Hw'); [simpl; lia|by rewrite Nat.add_0_r|] end;
        cbn [wrun wne wne_body fst snd]; rewrite Ew; cbn; replace (c + 1) with (S c) in Hw' by lia;
        done3; [constructor..|]. constructor. by eapply hands_events_shift.
    + destruct evs as [|ev evs]; [destruct stop as [err|]|]; try none. injection E as <- <- <-. exists Over, c. enter. done3. constructor.
  (* Fallible *)
  - injection E as <- <- <-. exists k, c. enter. done3. by constructor.
  - cbn [ne_body] in E. unfold passthrough, on_ok in E.
    destruct (ne (run n) h0 s0) as [| |h1 [s1 r1]] eqn:En; cbn in E; try discriminate.
    destruct (IH _ _ k c _ _ _ En) as (k' & c' & H).
    destruct r1 as [[ev|]|e]; injection E as <- <- <-;
      [exists k', c'|exists Gone, c'|exists Gone, c']; enter; below H;
      cbn [wrun wne wne_body]; unfold wpassthrough, won_ok; rewrite E'; cbn; done3; [|dead|dead].
    destruct (decide (k' = Gone)) as [->|Hk']; [|by constructor].
    apply tok_gone in Ht'. constructor. by constructor.
  (* Combine *)
  - destruct k as [| | | |k|k]; try none; cbn [ne_body] in E; unfold on_ok in E.
    + destruct (sk (run n) h0 s0) as [| |h1 [s1 r1]] eqn:En; cbn in E; try discriminate.
      destruct (IHs _ _ k c _ _ _ En) as (k' & c' & H).
      destruct r1 as [[ev|]|e]; injection E as <- <- <-;
        [exists (match k' with Gone => Gone | _ => In1 k' end), c'|exists Gone, c'|exists Gone, c']; enter; below H;
        cbn [wrun wne wne_body]; unfold won_ok; rewrite E'; cbn; done3; [| |dead].
      * destruct (decide (k' = Gone)) as [->|Hk']; [apply tok_gone in Ht'; constructor; by constructor|].
        destruct k'; [done|by constructor..].
      * constructor. by constructor.
    + destruct (sk (run n) h0 s0) as [| |h1 [s1 r1]] eqn:En; cbn in E; try discriminate.
      destruct r1 as [[ev|]|e]; injection E as <- <- <-;
        [exists (In2 k), c|exists k, c|exists Gone, c]; enter;
        pure_run (Psk W) En; cbn [wrun wne wne_body]; unfold won_ok; rewrite E'; cbn; done3; [by constructor..|dead].
  - cbn [ne_body] in E. unfold passthrough, on_ok in E.
    destruct (sk (run n) h0 s0) as [| |h1 [s1 r1]] eqn:En; cbn in E; try discriminate.
    destruct (IHs _ _ k c _ _ _ En) as (k' & c' & H).
    destruct r1 as [[ev|]|e]; injection E as <- <- <-;
      [exists k', c'|exists Gone, c'|exists Gone, c']; enter; below H;
      cbn [wrun wne wne_body]; unfold wpassthrough, won_ok; rewrite E'; cbn; done3; [|dead|dead].
    destruct (decide (k' = Gone)) as [->|Hk']; [|by constructor].
    apply tok_gone in Ht'. constructor. by constructor.
  (* Select *)
  - cbn [ne_body] in E. cbv zeta in E. unfold on_ok in E.
    destruct (sk (run n) h0 (SShared l)) as [| |h1 [s1 r1]] eqn:Esk; cbn in E; try discriminate.
    assert (forall W (h : gmap loc (wcell W)) w, sim_heap h h0 -> exists h' s',
      wsk (wrun n) (h, w) (WSShared l) = WDone (h', w) (s', r1) /\ sim_heap h' h1) as Hsk.
    { intros W h w Hh. pose proof (Psk W h h0 w _ _ Hh (M_shared l)) as H. rewrite Esk in H.
      apply sim_done in H as (h' & [s' r'] & E' & Hh' & [Hs' Hr]). cbn in Hr. subst. eauto. }
    destruct r1 as [[ev|]|e].
    + destruct (include direct level && matches m ev) eqn:Em.
      * destruct (build (b0 calls) h1 (SSingle (Some (SEStart ev (SShared l))))) as [| |h2 s2] eqn:Eb;
          cbn in E; try discriminate. injection E as <- <- <-. exists Here, (S c). enter.
        destruct (Hsk W h w Hh) as (h' & s' & E' & Hh').
        match goal with Hb : HandsMany _ _ _ |- _ => destruct (Hb _ _ Hw) as (w' & Ew & Hw') end.
        destruct (hands_builder _ _ _ _ _ _ _ (WSSingle (Some (WSEStart ev (WSShared l)))) _ _ Ew Hh'
                    ltac:(repeat constructor) Eb) as (h2' & s2' & E2 & Hh2 & Hs2).
        cbn [wrun wne wne_body]. cbv zeta. unfold won_ok. rewrite E'. cbn. rewrite Em. cbn. rewrite E2. cbn.
        done3. by constructor.
      * destruct (adjust level ev) as [nl|err] eqn:Ea; injection E as <- <- <-;
          exists Here, c; enter; destruct (Hsk W h w Hh) as (h' & s' & E' & Hh');
          cbn [wrun wne wne_body]; cbv zeta; unfold won_ok; rewrite E'; cbn; rewrite Em; cbn; rewrite Ea; cbn; done3;
          by constructor.
    + injection E as <- <- <-. exists Here, c. enter. destruct (Hsk W h w Hh) as (h' & s' & E' & Hh').
      cbn [wrun wne wne_body]. cbv zeta. unfold won_ok. rewrite E'. cbn. done3. by constructor.
    + injection E as <- <- <-. exists Here, c. enter. destruct (Hsk W h w Hh) as (h' & s' & E' & Hh').
      cbn [wrun wne wne_body]. cbv zeta. unfold won_ok. rewrite E'. cbn. done3. by constructor.
  - cbn [ne_body] in E. cbv zeta in E. unfold on_ok in E.
    destruct (ne (run n) h0 s0) as [| |h1 [s1 r1]] eqn:En; cbn in E; try discriminate.
    destruct r1 as [[ev|]|e]; injection E as <- <- <-; exists Here, c; enter;
      pure_run (Pne W) En; cbn [wrun wne wne_body]; cbv zeta; unfold won_ok; rewrite E'; cbn; done3; by constructor.
  - injection E as <- <- <-. exists Here, c. enter. done3. by constructor.
  (* SelectOnce *)
  - cbn [ne_body] in E. unfold on_ok in E.
    destruct (sk (run n) h0 (SShared l)) as [| |h1 [s1 r1]] eqn:Esk; cbn in E; try discriminate.
    assert (forall W (h : gmap loc (wcell W)) w, sim_heap h h0 -> exists h' s',
      wsk (wrun n) (h, w) (WSShared l) = WDone (h', w) (s', r1) /\ sim_heap h' h1) as Hsk.
    { intros W h w Hh. pose proof (Psk W h h0 w _ _ Hh (M_shared l)) as H. rewrite Esk in H.
      apply sim_done in H as (h' & [s' r'] & E' & Hh' & [Hs' Hr]). cbn in Hr. subst. eauto. }
    destruct r1 as [[ev|]|e].
    + destruct (include direct level && matches m ev) eqn:Em.
      * destruct (build p h1 (SSingle (Some (SEStart ev (SShared l))))) as [| |h2 s2] eqn:Eb;
          cbn in E; try discriminate. injection E as <- <- <-. exists Gone, 1. enter.
        destruct (Hsk W h w Hh) as (h' & s' & E' & Hh').
        match goal with Hb : HandsOnce _ _ _ |- _ => destruct (Hb _ Hw) as (w' & Ew & Hw') end.
        destruct (hands_builder _ _ _ _ _ _ _ (WSSingle (Some (WSEStart ev (WSShared l)))) _ _ Ew Hh'
                    ltac:(repeat constructor) Eb) as (h2' & s2' & E2 & Hh2 & Hs2).
        cbn [wrun wne wne_body]. unfold won_ok. rewrite E'. cbn. rewrite Em. cbn. rewrite E2. cbn.
        done3. constructor. by constructor.
      * destruct (adjust level ev) as [nl|err] eqn:Ea; injection E as <- <- <-;
          [exists Here, c|exists Gone, c]; enter; destruct (Hsk W h w Hh) as (h' & s' & E' & Hh');
          cbn [wrun wne wne_body]; unfold won_ok; rewrite E'; cbn; rewrite Em; cbn; rewrite Ea; cbn; done3.
        -- by constructor.
        -- dead.
    + injection E as <- <- <-. exists Gone, c. enter. destruct (Hsk W h w Hh) as (h' & s' & E' & Hh').
      cbn [wrun wne wne_body]. unfold won_ok. rewrite E'. cbn. done3. dead.
    + injection E as <- <- <-. exists Gone, c. enter. destruct (Hsk W h w Hh) as (h' & s' & E' & Hh').
      cbn [wrun wne wne_body]. unfold won_ok. rewrite E'. cbn. done3. dead.
  (* SelectContent *)
  - cbn [ne_body] in E. cbv zeta in E. unfold on_ok in E.
    destruct (sk (run n) h0 (SExpand (Some (XStart s0)))) as [| |h1 [s1 r1]] eqn:Esk; cbn in E; try discriminate.
    assert (forall W (h : gmap loc (wcell W)) w s, sim_heap h h0 -> sim s s0 -> exists h' s',
      wsk (wrun n) (h, w) (WSExpand (Some (WXStart s))) = WDone (h', w) (s', r1) /\ sim_heap h' h1 /\ sim s' s1) as Hsk.
    { intros W h w s Hh Hs. pose proof (Psk W h h0 w _ _ Hh (M_expand_start _ _ Hs)) as H. rewrite Esk in H.
      apply sim_done in H as (h' & [s' r'] & E' & Hh' & [Hs' Hr]). cbn in Hr. subst. eauto. }
    assert (forall W (I : nat -> W -> Prop) h w s, sim_heap h h0 ->
      tok I k c s (SSelectContent (Some (SCOpen s0 b0))) -> exists s1' b, s = WSSelectContent (Some (WSCOpen s1' b)) /\
      tok_cb I k c b b0 /\ exists h' s', wsk (wrun n) (h, w) (WSExpand (Some (WXStart s1'))) = WDone (h', w) (s', r1) /\
      sim_heap h' h1 /\ sim s' s1) as Hin.
    { intros W I h w s Hh Ht. inversion Ht; subst; [done|].
      match goal with Hs : sim ?s _ |- _ => destruct (Hsk W h w s Hh Hs) as (h' & s' & E' & Hh' & Hs') end.
      eauto 10. }
    destruct r1 as [[ev|]|e].
    1: destruct ev as [|d|d|d|d|tag attrs|tag|tag attrs|tag attrs].
    6: { destruct (build_content b0 (<[fresh_loc h1 := Cell (SPeek s1 None)]> h1)
          (SCurrentContent (Some (tag, fresh_loc h1, 0)))) as [| |h2 s2] eqn:Eb; cbn in E; try discriminate.
      injection E as <- <- <-. destruct (top_content _ _ _ k c _ _ Eb) as (k' & c' & H). exists k', c'.
      intros W I h w s Hh Ht Hw. destruct (Hin W I h w s Hh Ht) as (t & b & -> & Hb & h' & s' & E' & Hh' & Hs').
      cbn [wrun wne wne_body]. cbv zeta. unfold won_ok. rewrite E'. cbn. rewrite (simh_fresh _ _ Hh').
      destruct (H W I (<[fresh_loc h1:=WCell (WSPeek s' None)]> h') w (WSCurrentContent (Some (tag, fresh_loc h1, 0))) b)
        as (h3 & w' & s3 & E3 & Hh3 & Ht3 & Hw3); [|constructor|done|done|].
      { apply simh_insert; [done|]. constructor. by constructor. }
      rewrite E3. cbn. done3. destruct (decide (k' = Gone)) as [->|Hk']; [|by constructor].
      apply tok_gone in Ht3. constructor. by constructor. }
    all: injection E as <- <- <-; exists Gone, c; intros W I h w s Hh Ht Hw;
      destruct (Hin W I h w s Hh Ht) as (t & b & -> & Hb & h' & s' & E' & Hh' & Hs');
      cbn [wrun wne wne_body]; cbv zeta; unfold won_ok; rewrite E'; cbn; done3; dead.
  - cbn [ne_body] in E. unfold on_ok in E.
    destruct (ne (run n) h0 s0) as [| |h1 [s1 r1]] eqn:En; cbn in E; try discriminate.
    destruct (IH _ _ k c _ _ _ En) as (k' & c' & H).
    destruct r1 as [[ev|]|e]; injection E as <- <- <-;
      [exists k', c'|exists Gone, c'|exists Gone, c']; enter; below H;
      cbn [wrun wne wne_body]; unfold won_ok; rewrite E'; cbn; done3; [|dead|dead].
    destruct (decide (k' = Gone)) as [->|Hk']; [|by constructor].
    apply tok_gone in Ht'. constructor. by constructor.
  (* TemplateApply *)
  - cbn [ne_body] in E.
    destruct (co (run n) h0 s0 []) as [| |h1 r1] eqn:Ec; cbn in E; try discriminate.
    assert (forall W (h : gmap loc (wcell W)) w s, sim_heap h h0 -> sim s s0 -> exists h',
      wco (wrun n) (h, w) s [] = WDone (h', w) r1 /\ sim_heap h' h1) as Hco.
    { intros W h w s Hh Hs. pose proof (Pco W h h0 w s s0 [] Hh Hs) as H. rewrite Ec in H.
      apply sim_done in H as (h' & r' & E' & Hh' & ->). eauto. }
    destruct r1 as [t|e].
    + destruct (f0 t) as [a|e] eqn:Ef; injection E as <- <- <-; exists Gone, 1; enter;
        match goal with Hs : sim ?s _, Hf : forall w events, _ -> exists w', _ |- _ =>
          destruct (Hco W h w s Hh Hs) as (h' & E' & Hh'); destruct (Hf w t Hw) as (w' & Ew & Hw') end;
        cbn [wrun wne wne_body]; rewrite E'; cbn; rewrite Ew, Ef; cbn; done3; dead.
    + injection E as <- <- <-. exists Gone, c. enter.
      match goal with Hs : sim ?s _ |- _ => destruct (Hco W h w s Hh Hs) as (h' & E' & Hh') end.
      cbn [wrun wne wne_body]. rewrite E'. cbn. done3. dead.
  (* Repeat *)
  - cbn [ne_body] in E.
    destruct (co (run n) h0 s0 []) as [| |h1 r1] eqn:Ec; cbn in E; try discriminate.
    assert (forall W (h : gmap loc (wcell W)) w s, sim_heap h h0 -> sim s s0 -> exists h',
      wco (wrun n) (h, w) s [] = WDone (h', w) r1 /\ sim_heap h' h1) as Hco.
    { intros W h w s Hh Hs. pose proof (Pco W h h0 w s s0 [] Hh Hs) as H. rewrite Ec in H.
      apply sim_done in H as (h' & r' & E' & Hh' & ->). eauto. }
    destruct r1 as [t|e]; injection E as <- <- <-; [exists k, c|exists Gone, c]; enter;
      match goal with Hs : sim ?s _ |- _ => destruct (Hco W h w s Hh Hs) as (h' & E' & Hh') end;
      cbn [wrun wne wne_body]; rewrite E'; cbn; done3; [by constructor|dead].
  - cbn [ne_body] in E. destruct bs as [|p bs].
    + injection E as <- <- <-. exists Gone, (S c). enter.
      match goal with Hx : tok_items _ _ _ _ _ |- _ => rename Hx into Hi end.
      destruct k, i as [[b|] it]; cbn in Hi; try done.
      2: { destruct Hi as (p & rest & ? & _). discriminate. }
      destruct (Hi 0 w) as (w' & Ew & Hw'); [simpl; lia|by rewrite Nat.add_0_r|].
      cbn [wrun wne wne_body next_item fst snd]. rewrite Ew. cbn. replace (c + 1) with (S c) in Hw' by lia.
      done3. dead.
    + destruct (build p h0 (STemplate t 0)) as [| |h1 s1] eqn:Eb; cbn in E; try discriminate.
      injection E as <- <- <-. destruct k; try none; [exists Here, (S c)|exists Here, c]; enter;
        match goal with Hx : tok_items _ _ _ _ _ |- _ => rename Hx into Hi end;
        destruct i as [[b|] it]; cbn in Hi; try done.
      * destruct (Hi 0 w) as (w' & Ew & Hw'); [simpl; lia|by rewrite Nat.add_0_r|].
        destruct (pure_builder (stateless p) p w' h h0 h1 (WSTemplate t 0) (STemplate t 0) s1) as (h2 & s2 & E2 & Hh2 & Hs2);
          [done|done|constructor|done|].
        cbn [wrun wne wne_body next_item fst snd]. rewrite Ew. cbn -[run_builder]. rewrite E2. cbn.
        replace (c + 1) with (S c) in Hw' by lia. done3. constructor; [done|].
        cbn [tok_items]. by eapply hands_shift.
      * destruct Hi as (p' & rest & [= <- <-] & Hp & Hi).
        destruct (pure_builder b p w h h0 h1 (WSTemplate t 0) (STemplate t 0) s1) as (h2 & s2 & E2 & Hh2 & Hs2);
          [done|done|constructor|done|].
        cbn [wrun wne wne_body next_item fst snd]. cbn -[run_builder]. rewrite E2. cbn. done3. by constructor.
  - cbn [ne_body] in E. unfold on_ok in E.
    destruct (ne (run n) h0 s0) as [| |h1 [s1 r1]] eqn:En; cbn in E; try discriminate.
    destruct r1 as [[ev|]|e]; injection E as <- <- <-;
      [exists k, c|exists k, c|exists Gone, c]; enter;
      pure_run (Pne W) En; cbn [wrun wne wne_body]; unfold won_ok; rewrite E'; cbn; done3;
      [by constructor|by constructor|dead].
  (* RepeatOrElse *)
  - cbn [ne_body] in E. destruct bs as [|q bs].
    + destruct (build p h0 s0) as [| |h1 s1] eqn:Eb; cbn in E; try discriminate.
      injection E as <- <- <-. exists Gone, 1. enter.
      match goal with Hi : HandsItems _ _ _ |- _ => destruct (Hi 0 w) as (w' & Ew & Hw'); [simpl; lia|done|] end.
      match goal with Hb : sim_once ?b p, Hs : sim ?s s0 |- _ =>
        destruct (pure_builder b p w' h h0 h1 s s0 s1 Hb Hh Hs Eb) as (h2 & s2' & E2 & Hh2 & Hs2) end.
      cbn [wrun wne wne_body fst snd]. rewrite Ew. cbn -[run_builder]. rewrite E2. cbn. done3. constructor. by constructor.
    + injection E as <- <- <-. exists Ahead, 1. enter.
      match goal with Hi : HandsItems _ _ _ |- _ =>
        pose proof (hands_shift I 0 _ _ _ Hi) as Hi'; destruct (Hi 0 w) as (w' & Ew & Hw'); [simpl; lia|done|] end.
      cbn [wrun wne wne_body fst snd]. rewrite Ew. cbn. done3. constructor; [done|].
      assert (tok_items I Ahead 1 (Items (Some (stateless q)) (fun n => it (S n))) (q :: bs)).
      { exists q, bs. split_and!; [done|by intros v|done]. }
      destruct contents; [constructor; [done|by constructor]|by constructor].
  - cbn [ne_body] in E. unfold passthrough, on_ok in E.
    destruct (ne (run n) h0 s0) as [| |h1 [s1 r1]] eqn:En; cbn in E; try discriminate.
    destruct (IH _ _ k c _ _ _ En) as (k' & c' & H).
    destruct r1 as [[ev|]|e]; injection E as <- <- <-;
      [exists k', c'|exists Gone, c'|exists Gone, c']; enter; below H;
      cbn [wrun wne wne_body]; unfold wpassthrough, won_ok; rewrite E'; cbn; done3; [|dead|dead].
    destruct (decide (k' = Gone)) as [->|Hk']; [|by constructor].
    apply tok_gone in Ht'. constructor. by constructor.
Qed.

Lemma top_sk_step n : Top (ne (run n)) (fun W => wne (wrun n)) ->
  Top (sk (run n)) (fun W => wsk (wrun n)) -> Top (sk (run (S n))) (fun W => wsk (wrun (S n))).
Proof.
  intros top_ne IH h0 s0 k c h0' s0' r E. change (sk_body (run n) h0 s0 = Done h0' (s0', r)) in E. unfold sk_body in E.
  destruct (ne (run n) h0 s0) as [| |h1 [s1 r1]] eqn:En; cbn in E; try discriminate.
  destruct (top_ne _ _ k c _ _ _ En) as (k1 & c1 & H1).
  destruct (match r1 with inl (Some Noop) => true | _ => false end) eqn:Er.
  - assert (r1 = inl (Some Noop)) as -> by (destruct r1 as [[[]|]|]; done).
    destruct (IH _ _ k1 c1 _ _ _ E) as (k2 & c2 & H2). exists k2, c2. intros W I h w s Hh Ht Hw.
    destruct (H1 W I h w s Hh Ht Hw) as (h' & w' & s' & E' & Hh' & Ht' & Hw').
    destruct (H2 W I h' w' s' Hh' Ht' Hw') as (h'' & w'' & s'' & E'' & Hh'' & Ht'' & Hw'').
    exists h'', w'', s''. split_and!; [|done..]. cbn [wrun wsk]. unfold wsk_body. rewrite E'. cbn. exact E''.
  - assert (Done h1 (s1, r1) = Done h0' (s0', r)) as [= -> -> ->] by (destruct r1 as [[[]|]|]; done).
    exists k1, c1. intros W I h w s Hh Ht Hw.
    destruct (H1 W I h w s Hh Ht Hw) as (h' & w' & s' & E' & Hh' & Ht' & Hw').
    exists h', w', s'. split_and!; [|done..]. cbn [wrun wsk]. unfold wsk_body. rewrite E'. cbn.
    by destruct r as [[[]|]|].
Qed.
Lemma top_ne_sk n : Top (ne (run n)) (fun W => wne (wrun n)) /\ Top (sk (run n)) (fun W => wsk (wrun n)).
Proof.
  induction n as [|n [IH IHs]]; [split; intros h0 s0 k c h0' s0' r; discriminate|].
  split; [by apply top_ne_step|by apply top_sk_step].
Qed.
Definition top_sk n := proj2 (top_ne_sk n).
Lemma top_co n : forall h0 s0 acc k c h0' r, co (run n) h0 s0 acc = Done h0' r -> exists c',
  forall (W : Type) (I : nat -> W -> Prop) h w s, sim_heap h h0 -> tok I k c s s0 -> I c w ->
  exists h' w', wco (wrun n) (h, w) s acc = WDone (h', w') r /\ I c' w'.
Proof.
  induction n as [|n IH]; intros h0 s0 acc k c h0' r E; [discriminate|].
  change (co_body (run n) h0 s0 acc = Done h0' r) in E. unfold co_body in E.
  destruct (sk (run n) h0 s0) as [| |h1 [s1 r1]] eqn:En; cbn in E; try discriminate.
  destruct (top_sk n _ _ k c _ _ _ En) as (k1 & c1 & H1). destruct r1 as [[ev|]|e].
  - destruct (IH _ _ _ k1 c1 _ _ E) as (c2 & H2). exists c2. intros W I h w s Hh Ht Hw.
    destruct (H1 W I h w s Hh Ht Hw) as (h' & w' & s' & E' & Hh' & Ht' & Hw').
    destruct (H2 W I h' w' s' Hh' Ht' Hw') as (h'' & w'' & E'' & Hw'').
    exists h'', w''. split; [|done]. cbn [wrun wco]. unfold wco_body. rewrite E'. exact E''.
  - injection E as <- <-. exists c1. intros W I h w s Hh Ht Hw.
    destruct (H1 W I h w s Hh Ht Hw) as (h' & w' & s' & E' & Hh' & Ht' & Hw').
    exists h', w'. split; [|done]. cbn [wrun wco]. unfold wco_body. by rewrite E'.
  - injection E as <- <-. exists c1. intros W I h w s Hh Ht Hw.
    destruct (H1 W I h w s Hh Ht Hw) as (h' & w' & s' & E' & Hh' & Ht' & Hw').
    exists h', w'. split; [|done]. cbn [wrun wco]. unfold wco_body. by rewrite E'.
Qed.

(** ** Building *)

Lemma hands_0 {W} (I : nat -> W -> Prop) it bs : HandsItems I it bs -> HandsItems (fun k => I (0 + k)) it bs.
Proof. done. Qed.
Lemma top_content_stream {W} (I : nat -> W -> Prop) c c0 : HandsContent I c c0 ->
  tok I Here 0 (wcontent_stream c) (into_stream c0).
Proof. induction 1 as [f evs stop H|c c0 _ IH]; cbn; by constructor. Qed.
Lemma top_build_op o0 h0 s0 h0' s0' : build_op o0 h0 s0 = Done h0' s0' -> exists k,
  forall (W : Type) (I : nat -> W -> Prop) h w s o, sim_heap h h0 -> sim s s0 -> Hands I o o0 ->
  exists h' s', wbuild_op o (h, w) s = WDone (h', w) s' /\ sim_heap h' h0' /\ tok I k 0 s' s0'.
Proof.
  intros E. destruct o0; try (exists Gone; intros ? ? ? ? ? ? _ _ Ho; inversion Ho; fail).
  - injection E as <- <-. exists Here. intros W I h w s o Hh Hs Ho. inversion Ho. subst.
    do 2 eexists. split_and!; [reflexivity|done|by constructor].
  - cbn [build_op] in E. destruct sel as [m|e]; injection E as <- <-; [exists Here|exists Gone];
      intros W I h w s o Hh Hs Ho; inversion Ho; subst; do 2 eexists.
    + split_and!; [reflexivity| |]; cbn.
      * rewrite (simh_fresh _ _ Hh). apply simh_insert; [done|by constructor].
      * rewrite (simh_fresh _ _ Hh). constructor; [done|]. by constructor.
    + split_and!; [reflexivity|done|]. constructor. constructor.
  - cbn [build_op] in E. destruct sel as [m|e]; injection E as <- <-; [exists Here|exists Gone];
      intros W I h w s o Hh Hs Ho; inversion Ho; subst; do 2 eexists.
    + split_and!; [reflexivity| |]; cbn.
      * rewrite (simh_fresh _ _ Hh). apply simh_insert; [done|by constructor].
      * rewrite (simh_fresh _ _ Hh). constructor; [done|]. by constructor.
    + split_and!; [reflexivity|done|]. constructor. constructor.
  - injection E as <- <-. exists (In1 Here). intros W I h w s o Hh Hs Ho. inversion Ho as [| | | | | | | | | |? ? Hc|? ? Hc|? ? Hc|? ? Hc|? ? Hc|? ? Hc]. subst.
    apply top_content_stream in Hc. do 2 eexists. split_and!; [reflexivity|done|]. by constructor.
  - injection E as <- <-. exists (In2 Here). intros W I h w s o Hh Hs Ho. inversion Ho as [| | | | | | | | | |? ? Hc|? ? Hc|? ? Hc|? ? Hc|? ? Hc|? ? Hc]. subst.
    apply top_content_stream in Hc. do 2 eexists. split_and!; [reflexivity|done|]. by constructor.
  - injection E as <- <-. exists (In1 Here). intros W I h w s o Hh Hs Ho. inversion Ho as [| | | | | | | | | |? ? Hc|? ? Hc|? ? Hc|? ? Hc|? ? Hc|? ? Hc]. subst.
    apply top_content_stream in Hc. do 2 eexists. split_and!; [reflexivity|done|]. constructor; [done|done|by constructor].
  - injection E as <- <-. exists Here. intros W I h w s o Hh Hs Ho. inversion Ho. subst.
    do 2 eexists. split_and!; [reflexivity|done|]. constructor; [done|]. by apply hands_0.
  - injection E as <- <-. exists Here. intros W I h w s o Hh Hs Ho. inversion Ho. subst.
    do 2 eexists. split_and!; [reflexivity|done|]. constructor; [done..|by intros v].
  - injection E as <- <-. exists Here. intros W I h w s o Hh Hs Ho. inversion Ho. subst.
    do 2 eexists. split_and!; [reflexivity|done|]. constructor; [done|by constructor].
  - cbn [build_op] in E. destruct sel as [m|e]; injection E as <- <-; [exists Here|exists Gone];
      intros W I h w s o Hh Hs Ho; inversion Ho; subst; do 2 eexists; (split_and!; [reflexivity|done|]).
    + constructor; [done|]. constructor; [done|]. by constructor.
    + constructor. constructor.
  - cbn [build_op] in E. destruct sel as [m|e]; injection E as <- <-; [exists Here|exists Gone];
      intros W I h w s o Hh Hs Ho; inversion Ho; subst; do 2 eexists; (split_and!; [reflexivity|done|]).
    + constructor; [done|]. constructor; [done|]. by constructor.
    + constructor. constructor.
  - injection E as <- <-. exists (Here). intros W I h w s o Hh Hs Ho. inversion Ho as [| | | | | | | | | |? ? Hc|? ? Hc|? ? Hc|? ? Hc|? ? Hc|? ? Hc]. subst.
    apply top_content_stream in Hc. do 2 eexists. split_and!; [reflexivity|done|]. constructor; [done|]. by constructor.
  - injection E as <- <-. exists (Here). intros W I h w s o Hh Hs Ho. inversion Ho as [| | | | | | | | | |? ? Hc|? ? Hc|? ? Hc|? ? Hc|? ? Hc|? ? Hc]. subst.
    apply top_content_stream in Hc. do 2 eexists. split_and!; [reflexivity|done|]. constructor; [done|]. by constructor.
  - injection E as <- <-. exists (Here). intros W I h w s o Hh Hs Ho. inversion Ho as [| | | | | | | | | |? ? Hc|? ? Hc|? ? Hc|? ? Hc|? ? Hc|? ? Hc]. subst.
    apply top_content_stream in Hc. do 2 eexists. split_and!; [reflexivity|done|]. constructor; [done|]. by constructor.
  - injection E as <- <-. exists Here. intros W I h w s o Hh Hs Ho. inversion Ho. subst.
    do 2 eexists. split_and!; [reflexivity|done|]. constructor; [done|]. constructor. by apply hands_0.
  - injection E as <- <-. exists Here. intros W I h w s o Hh Hs Ho. inversion Ho. subst.
    do 2 eexists. split_and!; [reflexivity|done|]. constructor; [done..|by intros v].
Qed.
Lemma build_app p q h s : build (p ++ q) h s = obind (build p h s) (fun h s => build q h s).
Proof.
  revert h s. induction p as [|o p IH]; intros h s; [reflexivity|]. cbn.
  destruct (build_op o h s); cbn; [done..|]. apply IH.
Qed.
Lemma wbuild_app {W} (p q : wpipeline W) h s :
  wbuild (p ++ q) h s = wbind (wbuild p h s) (fun h s => wbuild q h s).
Proof.
  revert h s. induction p as [|o p IH]; intros h s; [reflexivity|]. cbn.
  destruct (wbuild_op o h s); cbn; [done..|]. apply IH.
Qed.

Lemma hands_result evs p o0 r : Gives evs (p ++ [o0]) r -> exists c,
  forall (W : Type) (I : nat -> W -> Prop) o w, Hands I o o0 -> I 0 w ->
  exists w', GivesIn evs (fun w => (w, map stateless_op p ++ [o])) w r w' /\ I c w'.
Proof.
  intros (n & h & E). unfold transform in E. rewrite build_app in E.
  destruct (build p ∅ (STemplate evs 0)) as [| |h1 s1] eqn:E1; cbn in E; try discriminate.
  destruct (build_op o0 h1 s1) as [| |h2 s2] eqn:E2; cbn in E; try discriminate.
  destruct (top_build_op _ _ _ _ _ E2) as (k & H2). destruct (top_co _ _ _ _ k 0 _ _ E) as (c & Hc).
  exists c. intros W I o w Ho Hw.
  assert (sim_heap (∅ : gmap loc (wcell W)) ∅) as Hemp by (intros l; rewrite !lookup_empty; constructor).
  pose proof (sim_build p ∅ ∅ w (WSTemplate evs 0) _ Hemp (M_template evs 0)) as H1. rewrite E1 in H1.
  apply sim_done in H1 as (h1' & s1' & E1' & Hh1 & Hs1).
  destruct (H2 W I h1' w s1' o Hh1 Hs1 Ho) as (h2' & s2' & E2' & Hh2 & Ht2).
  destruct (Hc W I h2' w s2' Hh2 Ht2 Hw) as (h' & w' & E' & Hw').
  exists w'. split; [|done]. exists n, h'. unfold wtransform, run_builder. cbn [fst snd].
  rewrite wbuild_app, E1'. cbn. rewrite E2'. cbn. exact E'.
Qed.
