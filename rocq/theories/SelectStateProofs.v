(** Lemmas for C82: [select] with a closure that has state. *)
From Coq Require Import Bool List Lia.
From stdpp Require Import gmap.
From Verif Require Import Text Event Input Parse Selector Machine Template MachineState.
From Verif Require Import SpecTree SpecTransform SpecOps SpecState SpecSelectState TreeProofs SelectionProofs OpProofs LawProofs3 ApiProofs.
From Verif Require Import FuelProofs StateProofs StateProofs2 StateProofs3 StateProofs4 StateProofs6.
Local Open Scope nat_scope.

(** A call that fails at once. *)
Definition fails (e : stream_error) : pipeline := [OSelect false (inr e) (fun _ => [])].
Definition bad (e : stream_error) (st : option select_state) : Prop :=
  exists level, st = Some (SelActive level (SFallible (Some (FStart (inr e))))).

(** What [select] is while it runs: the stream of a [Fallible], then nothing. *)
Definition sel0 l m b k direct (so : option (bool * option select_state)) : strm :=
  match so with
  | None => SFallible None
  | Some (false, st) => SFallible (Some (FStart (inl (SSelect l m b k direct st))))
  | Some (true, st) => SFallible (Some (FEmit (SSelect l m b k direct st)))
  end.
Definition wsel {W} l m (b : builder W) k direct (so : option (bool * option (@wselect_state W))) : wstrm W :=
  match so with
  | None => WSFallible None
  | Some (false, st) => WSFallible (Some (WFStart (inl (WSSelect l m b k direct st))))
  | Some (true, st) => WSFallible (Some (WFEmit (WSSelect l m b k direct st)))
  end.
Inductive simst {W} : option (@wselect_state W) -> option select_state -> Prop :=
| SS_none : simst None None
| SS_scan level : simst (Some (WSelScanning level)) (Some (SelScanning level))
| SS_active level s s0 : sim s s0 -> simst (Some (WSelActive level s)) (Some (SelActive level s0)).
Inductive simso {W} : option (bool * option (@wselect_state W)) -> option (bool * option select_state) -> Prop :=
| SO_none : simso None None
| SO_some x st st0 : simst st st0 -> simso (Some (x, st)) (Some (x, st0)).

Definition hands {W} (I : nat -> W -> Prop) (b : builder W) (b0 : nat -> pipeline) k c : Prop :=
  forall j w, k <= j < c -> I j w -> exists w', b j w = (w', map stateless_op (b0 j)) /\ I (S j) w'.
Definition same (b0 b1 : nat -> pipeline) (k c : nat) : Prop := forall j, k <= j < c -> b1 j = b0 j.

Definition Goes (f0 : heap -> strm -> step_out)
    (f : forall W : Type, wheap W -> wstrm W -> wout W (wstrm W * (option event + stream_error))) : Prop :=
  forall l m b0 direct h0 k so0 h0' s0' r, f0 h0 (sel0 l m b0 k direct so0) = Done h0' (s0', r) ->
  exists k' so1, k <= k' /\ s0' = sel0 l m b0 k' direct so1 /\
    (forall b1, same b0 b1 k k' -> f0 h0 (sel0 l m b1 k direct so0) = Done h0' (sel0 l m b1 k' direct so1, r)) /\
    (forall (W : Type) (I : nat -> W -> Prop) b h w so, sim_heap h h0 -> simso so so0 -> hands I b b0 k k' ->
       I k w -> exists h' w' so', f W (h, w) (wsel l m b k direct so) = WDone (h', w') (wsel l m b k' direct so', r) /\
         sim_heap h' h0' /\ simso so' so1 /\ I k' w') /\
    (forall j e, k <= j < k' -> b0 j = fails e -> (exists st, so1 = Some (true, st) /\ bad e st /\ r = inl (Some Noop)) \/ r = inr e) /\
    (forall e st, so0 = Some (true, st) -> bad e st -> r = inr e).

Lemma goes_inner n l m b0 direct h0 k st0 h0' s0' r :
  ne (run n) h0 (SSelect l m b0 k direct st0) = Done h0' (s0', r) ->
  exists k' st1, k <= k' /\ s0' = SSelect l m b0 k' direct st1 /\
    (forall b1, same b0 b1 k k' ->
       ne (run n) h0 (SSelect l m b1 k direct st0) = Done h0' (SSelect l m b1 k' direct st1, r)) /\
    (forall (W : Type) (I : nat -> W -> Prop) b h w st, sim_heap h h0 -> simst st st0 -> hands I b b0 k k' ->
       I k w -> exists h' w' st',
         wne (wrun n) (h, w) (WSSelect l m b k direct st) = WDone (h', w') (WSSelect l m b k' direct st', r) /\
         sim_heap h' h0' /\ simst st' st1 /\ I k' w') /\
    (forall j e, k <= j < k' -> b0 j = fails e -> bad e st1 /\ r = inl (Some Noop)) /\
    (forall e, bad e st0 -> r = inr e).
Proof.
  destruct n as [|n]; [discriminate|]. intros E.
  change (ne_body (run n) h0 (SSelect l m b0 k direct st0) = Done h0' (s0', r)) in E.
  pose proof (fun W => @m_sk W _ _ (run_sim n)) as Psk.
  pose proof (fun W => @m_ne W _ _ (run_sim n)) as Pne.
  destruct st0 as [[level|level s0]|].
  - cbn [ne_body] in E. cbv zeta in E. unfold on_ok in E.
    destruct (sk (run n) h0 (SShared l)) as [| |h1 [s1 r1]] eqn:Esk; cbn in E; try discriminate.
    assert (forall W (h : gmap loc (wcell W)) w, sim_heap h h0 -> exists h' s',
      wsk (wrun n) (h, w) (WSShared l) = WDone (h', w) (s', r1) /\ sim_heap h' h1) as Hsk.
    { intros W h w Hh. pose proof (Psk W h h0 w _ _ Hh (M_shared l)) as H. rewrite Esk in H.
      apply sim_done in H as (h' & [s' r'] & E' & Hh' & [Hs' Hr]). cbn in Hr. subst. eauto. }
    destruct r1 as [[ev|]|e].
    + destruct (include direct level && matches m ev) eqn:Em.
      * destruct (build (b0 k) h1 (SSingle (Some (SEStart ev (SShared l))))) as [| |h2 s2] eqn:Eb;
          cbn in E; try discriminate. injection E as <- <- <-.
        exists (S k), (Some (SelActive level s2)). split_and!; [lia|done| | | |].
        -- intros b1 Hb. cbn [run ne ne_body]. cbv zeta. unfold on_ok. rewrite Esk. cbn. rewrite Em. cbn.
           rewrite (Hb k) by lia. rewrite Eb. done.
        -- intros W I b h w st Hh Hst Hb Hw. inversion Hst; subst.
           destruct (Hsk W h w Hh) as (h' & s' & E' & Hh').
           destruct (Hb k w ltac:(lia) Hw) as (w' & Ew & Hw').
           destruct (hands_builder _ _ _ _ _ _ _ (WSSingle (Some (WSEStart ev (WSShared l)))) _ _ Ew Hh'
                    ltac:(repeat constructor) Eb) as (h2' & s2' & E2 & Hh2 & Hs2).
           cbn [wrun wne wne_body]. cbv zeta. unfold won_ok. rewrite E'. cbn. rewrite Em. cbn. rewrite E2. cbn.
           do 3 eexists. split_and!; [reflexivity|done|by constructor|done].
        -- intros j e Hj Hf. replace j with k in Hf by lia. rewrite Hf in Eb. cbn in Eb. injection Eb as <- <-.
           split; [|done]. eexists. reflexivity.
        -- intros e (? & ?). discriminate.
      * destruct (adjust level ev) as [nl|err] eqn:Ea; injection E as <- <- <-;
          [exists k, (Some (SelScanning nl))|exists k, None]; (split_and!; [lia|done| | | |]).
        2,6: intros W I b h w st Hh Hst Hb Hw; inversion Hst; subst;
             destruct (Hsk W h w Hh) as (h' & s' & E' & Hh');
             cbn [wrun wne wne_body]; cbv zeta; unfold won_ok; rewrite E'; cbn; rewrite Em; cbn; rewrite Ea; cbn;
             do 3 eexists; (split_and!; [reflexivity|done|by constructor|done]).
        1,4: intros b1 Hb; cbn [run ne ne_body]; cbv zeta; unfold on_ok; rewrite Esk; cbn; rewrite Em; cbn;
             by rewrite Ea.
        1,3: intros; lia.
        all: intros e (? & ?); discriminate.
    + injection E as <- <- <-. exists k, None. split_and!; [lia|done| | | |].
      * intros b1 Hb. cbn [run ne ne_body]. cbv zeta. unfold on_ok. by rewrite Esk.
      * intros W I b h w st Hh Hst Hb Hw. inversion Hst; subst.
        destruct (Hsk W h w Hh) as (h' & s' & E' & Hh').
        cbn [wrun wne wne_body]. cbv zeta. unfold won_ok. rewrite E'. cbn.
        do 3 eexists. split_and!; [reflexivity|done|by constructor|done].
      * intros; lia.
      * intros e (? & ?); discriminate.
    + injection E as <- <- <-. exists k, None. split_and!; [lia|done| | | |].
      * intros b1 Hb. cbn [run ne ne_body]. cbv zeta. unfold on_ok. by rewrite Esk.
      * intros W I b h w st Hh Hst Hb Hw. inversion Hst; subst.
        destruct (Hsk W h w Hh) as (h' & s' & E' & Hh').
        cbn [wrun wne wne_body]. cbv zeta. unfold won_ok. rewrite E'. cbn.
        do 3 eexists. split_and!; [reflexivity|done|by constructor|done].
      * intros; lia.
      * intros e0 (? & ?); discriminate.
  - cbn [ne_body] in E. cbv zeta in E. unfold on_ok in E.
    destruct (ne (run n) h0 s0) as [| |h1 [s1 r1]] eqn:En; cbn in E; try discriminate.
    assert (forall b1, ne (run (S n)) h0 (SSelect l m b1 k direct (Some (SelActive level s0))) =
      match r1 with
      | inl None => Done h1 (SSelect l m b1 k direct (Some (SelScanning level)), inl (Some Noop))
      | inl (Some ev) => Done h1 (SSelect l m b1 k direct (Some (SelActive level s1)), inl (Some ev))
      | inr e => Done h1 (SSelect l m b1 k direct None, inr e)
      end) as H1.
    { intros b1. cbn [run ne ne_body]. cbv zeta. unfold on_ok. rewrite En. cbn. by destruct r1 as [[]|]. }
    exists k, (match r1 with inl None => Some (SelScanning level) | inl (Some _) => Some (SelActive level s1)
                         | inr _ => None end).
    split_and!; [lia|by destruct r1 as [[]|]; injection E as <- <- <-| | | |].
    + intros b1 _. rewrite H1. by destruct r1 as [[]|]; injection E as <- <- <-.
    + intros W I b h w st Hh Hst Hb Hw. inversion Hst; subst.
      destruct r1 as [[ev|]|e]; injection E as <- <- <-; pure_run (Pne W) En; cbn [wrun wne wne_body];
        cbv zeta; unfold won_ok; rewrite E'; cbn;
        do 3 eexists; (split_and!; [reflexivity|done|by constructor|done]).
    + intros; lia.
    + intros e (lv & Hb). injection Hb as -> ->. destruct n as [|n]; [discriminate|].
      cbn in En. injection En as <- <- <-. by injection E as <- <- <-.
  - injection E as <- <- <-. exists k, None. split_and!; [lia|done|done| | |].
    + intros W I b h w st Hh Hst Hb Hw. inversion Hst; subst.
      do 3 eexists. split_and!; [reflexivity|done|by constructor|done].
    + intros; lia.
    + intros e (? & ?); discriminate.
Qed.

Lemma goes_ne n : Goes (ne (run n)) (fun W => wne (wrun n)).
Proof.
  destruct n as [|n]; [intros ? ? ? ? ? ? ? ? ? ?; discriminate|].
  intros l m b0 direct h0 k so0 h0' s0' r E. destruct so0 as [[[] st0]|].
  - cbn [sel0] in E. cbn [run ne ne_body] in E. unfold passthrough, on_ok in E.
    destruct (ne (run n) h0 (SSelect l m b0 k direct st0)) as [| |h1 [s1 r1]] eqn:En; cbn in E; try discriminate.
    destruct (goes_inner _ _ _ _ _ _ _ _ _ _ _ En) as (k' & st1 & Hk & -> & Hsw & Hst & Hf & Hbad).
    exists k', (match r1 with inl (Some _) => Some (true, st1) | _ => None end).
    split_and!; [done|by destruct r1 as [[]|]; injection E as <- <- <-| | | |].
    + intros b1 Hb. cbn [sel0 run ne ne_body]. unfold passthrough, on_ok. rewrite (Hsw b1 Hb). cbn.
      by destruct r1 as [[]|]; injection E as <- <- <-.
    + intros W I b h w so Hh Hso Hb Hw. inversion Hso; subst.
      destruct (Hst W I b h w st Hh ltac:(done) Hb Hw) as (h' & w' & st' & E' & Hh' & Hst' & Hw').
      cbn [wsel wrun wne wne_body]. unfold wpassthrough, won_ok. rewrite E'. cbn.
      destruct r1 as [[ev|]|e]; injection E as <- <- <-.
      * exists h', w', (Some (true, st')). split_and!; [done|done|by constructor|done].
      * exists h', w', None. split_and!; [done|done|by constructor|done].
      * exists h', w', None. split_and!; [done|done|by constructor|done].
    + intros j e Hj Hfj. destruct (Hf j e Hj Hfj) as [Hb ->]. injection E as <- <- <-. left. by exists st1.
    + intros e st [= <-] Hb. specialize (Hbad e Hb). subst. by injection E as <- <- <-.
  - cbn in E. injection E as <- <- <-. exists k, (Some (true, st0)).
    split_and!; [lia|done|done| |intros; lia|intros; discriminate].
    intros W I b h w so Hh Hso Hb Hw. inversion Hso; subst.
    exists h, w, (Some (true, st)). split_and!; [done|done|by constructor|done].
  - cbn in E. injection E as <- <- <-. exists k, None. split_and!; [lia|done|done| |intros; lia|intros; discriminate].
    intros W I b h w so Hh Hso Hb Hw. inversion Hso; subst.
    exists h, w, None. split_and!; [done|done|by constructor|done].
Qed.
Lemma goes_sk n : Goes (sk (run n)) (fun W => wsk (wrun n)).
Proof.
  induction n as [|n IH]; [intros ? ? ? ? ? ? ? ? ? ?; discriminate|].
  intros l m b0 direct h0 k so0 h0' s0' r E. change (sk_body (run n) h0 (sel0 l m b0 k direct so0) = Done h0' (s0', r)) in E.
  unfold sk_body in E.
  destruct (ne (run n) h0 (sel0 l m b0 k direct so0)) as [| |h1 [s1 r1]] eqn:En; cbn in E; try discriminate.
  destruct (goes_ne n _ _ _ _ _ _ _ _ _ _ En) as (k1 & so1 & Hk1 & -> & Hsw1 & Hst1 & Hf1 & Hb1).
  destruct (match r1 with inl (Some Noop) => true | _ => false end) eqn:Er.
  - assert (r1 = inl (Some Noop)) as -> by (destruct r1 as [[[]|]|]; done).
    destruct (IH _ _ _ _ _ _ _ _ _ _ E) as (k2 & so2 & Hk2 & -> & Hsw2 & Hst2 & Hf2 & Hb2).
    exists k2, so2. split_and!; [lia|done| | | |].
    + intros b1 Hb. cbn [run sk]. unfold sk_body. rewrite (Hsw1 b1) by (intros j Hj; apply Hb; lia). cbn.
      apply Hsw2. intros j Hj. apply Hb. lia.
    + intros W I b h w so Hh Hso Hb Hw.
      destruct (Hst1 W I b h w so Hh Hso ltac:(intros j v Hj; apply Hb; lia) Hw) as (h' & w' & so' & E' & Hh' & Hso' & Hw').
      destruct (Hst2 W I b h' w' so' Hh' Hso' ltac:(intros j v Hj; apply Hb; lia) Hw') as (h'' & w'' & so'' & E'' & Hh'' & Hso'' & Hw'').
      exists h'', w'', so''. split_and!; [|done..]. cbn [wrun wsk]. unfold wsk_body. rewrite E'. cbn. exact E''.
    + intros j e Hj Hfj. destruct (decide (j < k1)) as [Hlt|Hge].
      * destruct (Hf1 j e ltac:(lia) Hfj) as [(st & -> & Hb & _)|[=]]. right. by eapply Hb2.
      * apply (Hf2 j e); [lia|done].
    + intros e st -> Hb. by specialize (Hb1 e st eq_refl Hb).
  - assert (Done h1 (sel0 l m b0 k1 direct so1, r1) = Done h0' (s0', r)) as [= -> <- ->] by (destruct r1 as [[[]|]|]; done).
    exists k1, so1. split_and!; [done|done| | |done|done].
    + intros b1 Hb. cbn [run sk]. unfold sk_body. rewrite (Hsw1 b1 Hb). cbn. by destruct r as [[[]|]|].
    + intros W I b h w so Hh Hso Hb Hw.
      destruct (Hst1 W I b h w so Hh Hso Hb Hw) as (h' & w' & so' & E' & Hh' & Hso' & Hw').
      exists h', w', so'. split_and!; [|done..]. cbn [wrun wsk]. unfold wsk_body. rewrite E'. cbn. by destruct r as [[[]|]|].
Qed.
Lemma goes_co n : forall l m b0 direct h0 k so0 acc h0' r, co (run n) h0 (sel0 l m b0 k direct so0) acc = Done h0' r ->
  exists c, k <= c /\
    (forall b1, same b0 b1 k c -> co (run n) h0 (sel0 l m b1 k direct so0) acc = Done h0' r) /\
    (forall (W : Type) (I : nat -> W -> Prop) b h w so, sim_heap h h0 -> simso so so0 -> hands I b b0 k c ->
       I k w -> exists h' w', wco (wrun n) (h, w) (wsel l m b k direct so) acc = WDone (h', w') r /\ I c w') /\
    (forall j e, k <= j < c -> b0 j = fails e -> r = inr e) /\
    (forall e st, so0 = Some (true, st) -> bad e st -> r = inr e).
Proof.
  induction n as [|n IH]; intros l m b0 direct h0 k so0 acc h0' r E; [discriminate|].
  change (co_body (run n) h0 (sel0 l m b0 k direct so0) acc = Done h0' r) in E. unfold co_body in E.
  destruct (sk (run n) h0 (sel0 l m b0 k direct so0)) as [| |h1 [s1 r1]] eqn:En; cbn in E; try discriminate.
  destruct (goes_sk n _ _ _ _ _ _ _ _ _ _ En) as (k1 & so1 & Hk1 & -> & Hsw1 & Hst1 & Hf1 & Hb1).
  destruct r1 as [[ev|]|e1].
  - destruct (IH _ _ _ _ _ _ _ _ _ _ E) as (c & Hc & Hsw2 & Hst2 & Hf2 & Hb2).
    exists c. split_and!; [lia| | | |].
    + intros b1 Hb. cbn [run co]. unfold co_body. rewrite (Hsw1 b1) by (intros j Hj; apply Hb; lia). cbn.
      apply Hsw2. intros j Hj. apply Hb. lia.
    + intros W I b h w so Hh Hso Hb Hw.
      destruct (Hst1 W I b h w so Hh Hso ltac:(intros j v Hj; apply Hb; lia) Hw) as (h' & w' & so' & E' & Hh' & Hso' & Hw').
      destruct (Hst2 W I b h' w' so' Hh' Hso' ltac:(intros j v Hj; apply Hb; lia) Hw') as (h'' & w'' & E'' & Hw'').
      exists h'', w''. split; [|done]. cbn [wrun wco]. unfold wco_body. rewrite E'. cbn. exact E''.
    + intros j e Hj Hfj. destruct (decide (j < k1)) as [Hlt|Hge].
      * destruct (Hf1 j e ltac:(lia) Hfj) as [(st & -> & Hb & _)|[=]]. by eapply Hb2.
      * apply (Hf2 j e); [lia|done].
    + intros e st -> Hb. by specialize (Hb1 e st eq_refl Hb).
  - injection E as <- <-. exists k1. split_and!; [done| | | |].
    + intros b1 Hb. cbn [run co]. unfold co_body. by rewrite (Hsw1 b1 Hb).
    + intros W I b h w so Hh Hso Hb Hw.
      destruct (Hst1 W I b h w so Hh Hso Hb Hw) as (h' & w' & so' & E' & Hh' & Hso' & Hw').
      exists h', w'. split; [|done]. cbn [wrun wco]. unfold wco_body. by rewrite E'.
    + intros j e Hj Hfj. destruct (Hf1 j e Hj Hfj) as [(st & _ & _ & [=])|[=]].
    + intros e st -> Hb. by specialize (Hb1 e st eq_refl Hb).
  - injection E as <- <-. exists k1. split_and!; [done| | | |].
    + intros b1 Hb. cbn [run co]. unfold co_body. by rewrite (Hsw1 b1 Hb).
    + intros W I b h w so Hh Hso Hb Hw.
      destruct (Hst1 W I b h w so Hh Hso Hb Hw) as (h' & w' & so' & E' & Hh' & Hso' & Hw').
      exists h', w'. split; [|done]. cbn [wrun wco]. unfold wco_body. by rewrite E'.
    + intros j e Hj Hfj. destruct (Hf1 j e Hj Hfj) as [(st & _ & _ & [=])|[=->]]. done.
    + intros e st -> Hb. specialize (Hb1 e st eq_refl Hb). by injection Hb1 as ->.
Qed.

(** ** From outside *)

Lemma core evs q direct m b1 r : Gives evs (q ++ [OSelect direct (inl m) b1]) r -> exists c,
  (forall b2, (forall j, j < c -> b2 j = b1 j) -> Gives evs (q ++ [OSelect direct (inl m) b2]) r) /\
  (forall j e, j < c -> b1 j = fails e -> r = inr e) /\
  (forall (W : Type) (w : nat -> W) b, Calls_in_turn b w b1 c ->
     GivesIn evs (fun v => (v, map stateless_op q ++ [WSelect direct (inl m) b])) (w 0) r (w c)).
Proof.
  intros (n & h & E). unfold transform in E. rewrite build_app in E.
  destruct (build q ∅ (STemplate evs 0)) as [| |h1 s1] eqn:E1; cbn in E; try discriminate.
  change (co (run n) (<[fresh_loc h1:=Cell s1]> h1)
            (sel0 (fresh_loc h1) m b1 0 direct (Some (false, Some (SelScanning 0)))) [] = Done h r) in E.
  destruct (goes_co n _ _ _ _ _ _ _ _ _ _ E) as (c & _ & Hsw & Hst & Hf & _). exists c. split_and!.
  - intros b2 Hb. exists n, h. unfold transform. rewrite build_app, E1. cbn. apply Hsw. intros j Hj. apply Hb. lia.
  - intros j e Hj. apply Hf. lia.
  - intros W w b Hb.
    assert (sim_heap (∅ : gmap loc (wcell W)) ∅) as Hemp by (intros l; rewrite !lookup_empty; constructor).
    pose proof (sim_build q ∅ ∅ (w 0) (WSTemplate evs 0) _ Hemp (M_template evs 0)) as H1. rewrite E1 in H1.
    apply sim_done in H1 as (h1' & s1' & E1' & Hh1 & Hs1).
    destruct (Hst W (fun k v => v = w k) b (<[fresh_loc h1:=WCell s1']> h1') (w 0)
                (Some (false, Some (WSelScanning 0)))) as (h' & w' & E' & ->).
    + apply simh_insert; [done|by constructor].
    + constructor. constructor.
    + intros j v Hj ->. exists (w (S j)). split; [|done]. apply Hb. lia.
    + done.
    + exists n, h'. unfold wtransform, run_builder. cbn [fst snd]. rewrite wbuild_app, E1'. cbn.
      rewrite (simh_fresh _ _ Hh1). exact E'.
Qed.

Lemma fails_valid e : ValidArgs (fails e).
Proof. apply valid_args_wrap; try done. intros q [k ->]. apply empty_valid. Qed.

Lemma builder_valid direct m b : (forall k, ValidArgs (b k)) -> ValidArgs [OSelect direct (inl m) b].
Proof. intros H. apply valid_args_wrap; try done. intros q [k ->]. apply H. Qed.

(** An error that is not [err] *)
Definition other (err : stream_error) : stream_error :=
  match err with SEAssertion (MExpectedOpeningTag None) => expected_open (Some Noop) | _ => expected_open None end.
Lemma other_not err : other err <> err.
Proof. destruct err as [[|[]|]| | | | |]; discriminate. Qed.

Lemma nth_error_some {A} (l : list A) k : k < length l -> exists x, nth_error l k = Some x.
Proof. intros H. destruct (nth_error l k) eqn:E; [eauto|]. apply nth_error_None in E. lia. Qed.
Lemma selects_in_refill direct m F xs rs out : SelectsIn direct m F xs rs out ->
  forall rs', length rs' = length xs -> exists out', SelectsIn direct m F xs rs' out'.
Proof. destruct direct; [apply selects_direct_refill|apply selects_refill]. Qed.

Section Select.
  Context (e e1 : bool) (evs : list event) (q : pipeline) (F : list tree) (direct : bool) (m : selector) (xs : list tree).
  Context (Hm : ElementSelector m) (HF : Proper F) (He : Selection e evs) (Ht : typed e q e1) (Hv : ValidArgs q)
          (Hq : Gives evs q (inl (events F))).

  (** What [select] gives after the calls [q]. *)
  Lemma after_q b r : ElementBuilder b -> (forall k, ValidArgs (b k)) ->
    Gives (events F) [OSelect direct (inl m) b] r -> Gives evs (q ++ [OSelect direct (inl m) b]) r.
  Proof.
    intros Hb Hvb Hg. eapply (chain_result e q _ false); [done| | |exact Hq|exact Hg].
    - eapply LawProofs2.typed_app; [exact Ht|]. by apply typed_select.
    - apply valid_args_app; [done|]. by apply builder_valid.
  Qed.

  Context (p : nat -> pipeline) (n : nat).
  Context (Hp : forall k, k < n -> (exists e, typed true (p k) e) /\ ValidArgs (p k)).
  Definition upto (c : nat) (dflt : pipeline) : nat -> pipeline := fun k => if decide (k < c) then p k else dflt.
  Lemma upto_lt c d k : k < c -> upto c d k = p k.
  Proof. intros H. unfold upto. by rewrite decide_True. Qed.
  Lemma upto_ge c d k : ~ k < c -> upto c d k = d.
  Proof. intros H. unfold upto. by rewrite decide_False. Qed.
  Lemma upto_typed c d : c <= n -> (exists e, typed true d e) -> ElementBuilder (upto c d).
  Proof. intros Hc Hd k. unfold upto. destruct (decide _); [apply Hp; lia|done]. Qed.
  Lemma upto_valid c d : c <= n -> ValidArgs d -> forall k, ValidArgs (upto c d k).
  Proof. intros Hc Hd k. unfold upto. destruct (decide _); [apply Hp; lia|done]. Qed.
  Lemma fails_typed err : exists e, typed true (fails err) e.
  Proof. eexists. apply typed_one. constructor. intros k. eexists. constructor. Qed.
  Lemma nil_typed : exists e, typed true [] e.
  Proof. eexists. constructor. Qed.

  Lemma first_fails c err rs : c < length xs -> Builds_all p xs rs ->
    First_failure (upto c (fails err)) xs c err.
  Proof.
    intros Hc [Hl Hr]. split.
    - destruct (nth_error_some xs c Hc) as [x Hx]. exists x. split; [done|]. rewrite upto_ge by lia.
      exists 3. eexists. reflexivity.
    - intros j x Hj Hx. rewrite upto_lt by done. destruct (nth_error_some rs j ltac:(lia)) as [r Hr'].
      exists r. by eapply Hr.
  Qed.

  Lemma in_turn_result {W} rs out (b : builder W) w : n = length xs -> SelectsIn direct m F xs rs out ->
    Calls_in_turn b w p n -> Builds_all p xs rs ->
    GivesIn evs (fun v => (v, map stateless_op q ++ [WSelect direct (inl m) b])) (w 0) (inl out) (w n).
  Proof.
    intros Hn Hs Hc Hr. set (err := expected_open None). set (b1 := upto n (fails err)).
    assert (Gives evs (q ++ [OSelect direct (inl m) b1]) (inl out)) as H1.
    { apply after_q; [by apply upto_typed, fails_typed|by apply upto_valid, fails_valid|].
      eapply select_result; [done|done|by apply upto_typed, fails_typed| |exact Hs|].
      - apply builder_valid. by apply upto_valid, fails_valid.
      - destruct Hr as [Hl Hr]. split; [done|]. intros k x r Hx Hrr. unfold b1. rewrite upto_lt; [by eapply Hr|].
        subst n. apply nth_error_Some. congruence. }
    destruct (core _ _ _ _ _ _ H1) as (c & Hsw & Hf & Hst).
    assert (c <= n) as Hle.
    { destruct (decide (c <= n)); [done|]. exfalso. specialize (Hf n err ltac:(lia)).
      unfold b1 in Hf. rewrite upto_ge in Hf by lia. by specialize (Hf eq_refl). }
    assert (c = n) as ->.
    { destruct (decide (c = n)); [done|]. exfalso. assert (c < n) as Hlt by lia.
      assert (Gives evs (q ++ [OSelect direct (inl m) (upto c (fails err))]) (inl out)) as H2.
      { apply Hsw. intros j Hj. unfold b1. by rewrite !upto_lt by lia. }
      assert (Gives evs (q ++ [OSelect direct (inl m) (upto c (fails err))]) (inr err)) as H3.
      { apply after_q; [apply upto_typed; [lia|apply fails_typed]|apply upto_valid; [lia|apply fails_valid]|].
        eapply select_failure; [done|done|apply upto_typed; [lia|apply fails_typed]| |exact Hs|].
        - apply builder_valid. apply upto_valid; [lia|apply fails_valid].
        - eapply first_fails; [lia|exact Hr]. }
      by pose proof (gives_det _ _ _ _ H2 H3). }
    apply Hst. intros k Hk. unfold b1. rewrite upto_lt by done. by apply Hc.
  Qed.

  Lemma in_turn_failure {W} rs out (b : builder W) w k err : n = S k -> SelectsIn direct m F xs rs out ->
    Calls_in_turn b w p n -> First_failure p xs k err ->
    GivesIn evs (fun v => (v, map stateless_op q ++ [WSelect direct (inl m) b])) (w 0) (inr err) (w n).
  Proof.
    intros Hn Hs Hc [(x & Hx & Hg) Hr]. set (b1 := upto n (fails (other err))).
    assert (Gives evs (q ++ [OSelect direct (inl m) b1]) (inr err)) as H1.
    { apply after_q; [by apply upto_typed, fails_typed|by apply upto_valid, fails_valid|].
      eapply (select_failure _ _ _ _ _ _ _ k); [done|done|by apply upto_typed, fails_typed| |exact Hs|].
      - apply builder_valid. by apply upto_valid, fails_valid.
      - split; [exists x; split; [done|]; unfold b1; rewrite upto_lt by lia; done|].
        intros j y Hj Hy. unfold b1. rewrite upto_lt by lia. by apply Hr. }
    destruct (core _ _ _ _ _ _ H1) as (c & Hsw & Hf & Hst).
    assert (c <= n) as Hle.
    { destruct (decide (c <= n)); [done|]. exfalso. specialize (Hf n (other err) ltac:(lia)).
      unfold b1 in Hf. rewrite upto_ge in Hf by lia. specialize (Hf eq_refl). injection Hf as Hf.
      by apply (other_not err). }
    assert (c = n) as ->.
    { destruct (decide (c = n)); [done|]. exfalso. assert (c <= k) as Hlt by lia.
      assert (Gives evs (q ++ [OSelect direct (inl m) (upto c [])]) (inr err)) as H2.
      { apply Hsw. intros j Hj. unfold b1. by rewrite !upto_lt by lia. }
      assert (forall j y, nth_error xs j = Some y -> exists r, Gives (tree_events y) (upto c [] j) (inl r)) as Hall.
      { intros j y Hy. unfold upto. destruct (decide (j < c)); [apply Hr; [lia|done]|].
        exists (tree_events y). apply identity_result, well_nested_tree.
        eapply (selects_in_element direct m F xs); [done|exact Hs|done|]. eapply nth_error_In, Hy. }
      assert (exists rs', Builds_all (upto c []) xs rs') as [rs' Hrs].
      { clear - Hall. revert Hall. generalize (upto c []). induction xs as [|y ys IH] using rev_ind; intros b0 Hall.
        - exists []. split; [done|]. intros [|]; discriminate.
        - destruct (IH b0) as (rs' & Hl & H').
          { intros j z Hz. apply Hall. rewrite nth_error_app1; [done|]. apply nth_error_Some. congruence. }
          destruct (Hall (length ys) y) as [r Hr]; [by rewrite nth_error_app2, Nat.sub_diag by lia|].
          exists (rs' ++ [r]). split; [rewrite !app_length; simpl; lia|]. intros j z r' Hz Hr'.
          destruct (decide (j < length ys)) as [Hj|Hj].
          + rewrite nth_error_app1 in Hz by done. rewrite nth_error_app1 in Hr' by lia. by eapply H'.
          + assert (j = length ys) as ->.
            { assert (j < length (ys ++ [y])) by (apply nth_error_Some; congruence).
              rewrite app_length in H. simpl in H. lia. }
            rewrite nth_error_app2, Nat.sub_diag in Hz by lia. rewrite Hl in Hr'.
            rewrite nth_error_app2, Nat.sub_diag in Hr' by lia. injection Hz as <-. injection Hr' as <-. done. }
      destruct (selects_in_refill _ _ _ _ _ _ Hs rs') as [out' Hs']; [by destruct Hrs|].
      assert (Gives evs (q ++ [OSelect direct (inl m) (upto c [])]) (inl out')) as H3.
      { apply after_q; [apply upto_typed; [lia|apply nil_typed]|apply upto_valid; [lia|apply empty_valid]|].
        eapply select_result; [done|done|apply upto_typed; [lia|apply nil_typed]| |exact Hs'|exact Hrs].
        apply builder_valid. apply upto_valid; [lia|apply empty_valid]. }
      by pose proof (gives_det _ _ _ _ H2 H3). }
    apply Hst. intros j Hj. unfold b1. rewrite upto_lt by done. by apply Hc.
  Qed.
End Select.
