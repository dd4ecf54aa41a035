(** Lemmas for C86: [subselect] with a closure that has state. *)
From Coq Require Import Bool List Lia.
From stdpp Require Import gmap.
From Verif Require Import Text Event Input Parse Selector Machine Template MachineState.
From Verif Require Import SpecTree SpecTransform SpecOps SpecState SpecSelectState TreeProofs SelectionProofs OpProofs LawProofs3 ApiProofs ApiProofs2 ReachProofs.
From Verif Require Import FuelProofs StateProofs StateProofs2 StateProofs3 StateProofs4 StateProofs6 SelectStateProofs.
Local Open Scope nat_scope.

(** A stream with the closure of a [select], which has been called [k] times. *)
Inductive mfam (k : nat) : ((nat -> pipeline) -> strm) -> (forall W, builder W -> wstrm W -> Prop) -> Prop :=
| MF_gone s0 : mfam k (fun _ => s0) (fun W b s => sim s s0)
| MF_select l m direct st0 :
    mfam k (fun b => SSelect l m b k direct st0)
           (fun W b s => exists st, s = WSSelect l m b k direct st /\ simst st st0)
| MF_start P Q : mfam k P Q ->
    mfam k (fun b => SFallible (Some (FStart (inl (P b)))))
           (fun W b s => exists s', s = WSFallible (Some (WFStart (inl s'))) /\ Q W b s')
| MF_emit P Q : mfam k P Q ->
    mfam k (fun b => SFallible (Some (FEmit (P b))))
           (fun W b s => exists s', s = WSFallible (Some (WFEmit s')) /\ Q W b s')
| MF_open s0 direct m : k = 0 ->
    mfam k (fun b => SSelectContent (Some (SCOpen s0 (CBSelect direct m b))))
           (fun W b s => exists s', s = WSSelectContent (Some (WSCOpen s' (WCBSelect direct m b))) /\ sim s' s0)
| MF_content l tag P Q : mfam k P Q ->
    mfam k (fun b => SSelectContent (Some (SCContent l (P b) tag)))
           (fun W b s => exists s', s = WSSelectContent (Some (WSCContent l s' tag)) /\ Q W b s').

(** Its last calls were those of [fails e]. *)
Inductive losing (e : stream_error) : strm -> Prop :=
| L_select l m b k direct st : bad e st -> losing e (SSelect l m b k direct st)
| L_emit s : losing e s -> losing e (SFallible (Some (FEmit s)))
| L_content l s tag : losing e s -> losing e (SSelectContent (Some (SCContent l s tag))).
Lemma losing_ne e n : forall h s h' s' r, losing e s -> ne (run n) h s = Done h' (s', r) -> r = inr e.
Proof.
  induction n as [|n IH]; [discriminate|]. intros h s h' s' r Hl E. inversion Hl; subst.
  - destruct (goes_inner _ _ _ _ _ _ _ _ _ _ _ E) as (? & ? & _ & _ & _ & _ & _ & Hb). by apply Hb.
  - cbn [run ne ne_body] in E. unfold passthrough, on_ok in E.
    destruct (ne (run n) h s0) as [| |h1 [s1 r1]] eqn:En; cbn in E; try discriminate.
    pose proof (IH _ _ _ _ _ H En) as ->. by injection E as <- <- <-.
  - cbn [run ne ne_body] in E. unfold on_ok in E.
    destruct (ne (run n) h s0) as [| |h1 [s1 r1]] eqn:En; cbn in E; try discriminate.
    pose proof (IH _ _ _ _ _ H En) as ->. by injection E as <- <- <-.
Qed.
Lemma losing_sk n e h s h' s' r : losing e s -> sk (run n) h s = Done h' (s', r) -> r = inr e.
Proof.
  intros Hl E. destruct n as [|n]; [discriminate|]. change (sk_body (run n) h s = Done h' (s', r)) in E. unfold sk_body in E.
  destruct (ne (run n) h s) as [| |h1 [s1 r1]] eqn:En; cbn in E; try discriminate.
  pose proof (losing_ne _ _ _ _ _ _ _ Hl En) as ->. by injection E as <- <- <-.
Qed.

Definition Goes_on (f0 : heap -> strm -> step_out)
    (f : forall W : Type, wheap W -> wstrm W -> wout W (wstrm W * (option event + stream_error)))
    k k' b0 P Q P' (Q' : forall W, builder W -> wstrm W -> Prop) h0 h0' r : Prop :=
  k <= k' /\ mfam k' P' Q' /\
  (forall b1, same b0 b1 k k' -> f0 h0 (P b1) = Done h0' (P' b1, r)) /\
  (forall (W : Type) (I : nat -> W -> Prop) b h w s, sim_heap h h0 -> Q W b s -> hands I b b0 k k' ->
     I k w -> exists h' w' s', f W (h, w) s = WDone (h', w') (s', r) /\ sim_heap h' h0' /\ Q' W b s' /\ I k' w').

Lemma mfam_ne n : forall k P Q, mfam k P Q -> forall b0 h0 h0' s0' r, ne (run n) h0 (P b0) = Done h0' (s0', r) ->
  exists k' P' Q', s0' = P' b0 /\ Goes_on (ne (run n)) (fun W => wne (wrun n)) k k' b0 P Q P' Q' h0 h0' r /\
    (forall j e, k <= j < k' -> b0 j = fails e -> losing e s0' /\ r = inl (Some Noop)).
Proof.
  induction n as [|n IH]; [discriminate|]. intros k P Q HP b0 h0 h0' s0' r E.
  destruct HP as [s0|l m direct st0|P Q HP|P Q HP|s0 direct m ->|l tag P Q HP].
  - exists k, (fun _ => s0'), (fun W b s => sim s s0'). split_and!; [done|split_and!|intros; lia]; [lia|constructor|done|].
    intros W I b h w s Hh Hs _ Hw. pose proof (@m_ne W _ _ (run_sim (S n)) h h0 w _ _ Hh Hs) as H. rewrite E in H.
    apply sim_done in H as (h' & [s' r'] & E' & Hh' & [Hs' Hr]). cbn in Hr, Hs'. subst. eauto 10.
  - destruct (goes_inner _ _ _ _ _ _ _ _ _ _ _ E) as (k' & st1 & Hk & -> & Hsw & Hst & Hf & _).
    exists k'. do 2 eexists. split; [|split; [split_and!; [exact Hk|apply (MF_select k' l m direct st1)|exact Hsw|]|]]; [done|..].
    + intros W I b h w s Hh (st & -> & Hs) Hb Hw.
      destruct (Hst W I b h w st Hh Hs Hb Hw) as (h' & w' & st' & E' & Hh' & Hs' & Hw'). eauto 10.
    + intros j e Hj He. destruct (Hf j e Hj He) as [Hb ->]. split; [by constructor|done].
  - cbn in E. injection E as <- <- <-. exists k. do 2 eexists.
    split; [|split; [split_and!; [lia|apply (MF_emit k P Q HP)|done|]|intros; lia]]; [done|].
    intros W I b h w s Hh (s' & -> & Hs) _ Hw. cbn. eauto 10.
  - cbn [run ne ne_body] in E. unfold passthrough, on_ok in E.
    destruct (ne (run n) h0 (P b0)) as [| |h1 [s1 r1]] eqn:En; cbn in E; try discriminate.
    destruct (IH k P Q HP _ _ _ _ _ En) as (k' & P1 & Q1 & -> & (Hk & HP1 & H1 & Hst) & Hf). exists k'.
    destruct r1 as [[ev|]|e]; injection E as <- <- <-; do 2 eexists.
    + split; [|split; [split_and!; [done|apply (MF_emit k' P1 Q1 HP1)|..]|]]; [done|..].
      * intros b1 Hb. cbn [run ne ne_body]. unfold passthrough, on_ok. by rewrite H1.
      * intros W I b h w s Hh (s' & -> & Hs) Hb Hw. destruct (Hst W I b h w s' Hh Hs Hb Hw) as (h' & w' & s'' & E' & Hh' & Hs' & Hw').
        cbn [wrun wne wne_body]. unfold wpassthrough, won_ok. rewrite E'. cbn. eauto 10.
      * intros j e Hj He. destruct (Hf j e Hj He) as [Hl [= ->]]. split; [by constructor|done].
    + split; [|split; [split_and!; [done|apply (MF_gone k' (SFallible None))|..]|]]; [done|..].
      * intros b1 Hb. cbn [run ne ne_body]. unfold passthrough, on_ok. by rewrite H1.
      * intros W I b h w s Hh (s' & -> & Hs) Hb Hw. destruct (Hst W I b h w s' Hh Hs Hb Hw) as (h' & w' & s'' & E' & Hh' & Hs' & Hw').
        cbn [wrun wne wne_body]. unfold wpassthrough, won_ok. rewrite E'. cbn. do 3 eexists. split_and!; [done|done|constructor|done].
      * intros j e Hj He. by destruct (Hf j e Hj He) as [Hl [=]].
    + split; [|split; [split_and!; [done|apply (MF_gone k' (SFallible None))|..]|]]; [done|..].
      * intros b1 Hb. cbn [run ne ne_body]. unfold passthrough, on_ok. by rewrite H1.
      * intros W I b h w s Hh (s' & -> & Hs) Hb Hw. destruct (Hst W I b h w s' Hh Hs Hb Hw) as (h' & w' & s'' & E' & Hh' & Hs' & Hw').
        cbn [wrun wne wne_body]. unfold wpassthrough, won_ok. rewrite E'. cbn. do 3 eexists. split_and!; [done|done|constructor|done].
      * intros j e1 Hj He. by destruct (Hf j e1 Hj He) as [Hl [=]].
  - cbn [run ne ne_body] in E. cbv zeta in E. unfold on_ok in E.
    destruct (sk (run n) h0 (SExpand (Some (XStart s0)))) as [| |h3 [s3 r3]] eqn:Esk; cbn [obind] in E; try discriminate.
    assert (forall W (g : gmap loc (wcell W)) s w, sim_heap g h0 -> sim s s0 -> exists h' s',
      wsk (wrun n) (g, w) (WSExpand (Some (WXStart s))) = WDone (h', w) (s', r3) /\ sim_heap h' h3 /\ sim s' s3) as Hsk.
    { intros W g s w Hg Hs. assert (sim (WSExpand (Some (WXStart s))) (SExpand (Some (XStart s0)))) as Hx by by constructor.
      pose proof (@m_sk W _ _ (run_sim n) g h0 w _ _ Hg Hx) as H. rewrite Esk in H.
      apply sim_done in H as (h' & [s' r'] & E' & Hh' & [Hs' Hr]). cbn in Hr, Hs'. subst. eauto. }
    exists 0. destruct r3 as [[ev|]|err]; [destruct ev|..]; cbn in E; injection E as <- <- <-; do 2 eexists.
    all: try (split; [|split; [split_and!; [done|apply (MF_gone 0 (SSelectContent None))|..]|intros; lia]]; [done|..];
      [intros b1 _; cbn [run ne ne_body]; cbv zeta; unfold on_ok; by rewrite Esk|];
      intros W I b h w s Hh (s' & -> & Hs) _ Hw; destruct (Hsk W h s' w Hh Hs) as (h' & s'' & E' & Hh' & Hs');
      cbn [wrun wne wne_body]; cbv zeta; unfold won_ok; rewrite E'; cbn; do 3 eexists; (split_and!; [done|done|constructor|done]); fail).
    split; [|split; [split_and!; [done|apply (MF_content 0 (fresh_loc h3) tag _ _
      (MF_select 0 (fresh_loc (<[fresh_loc h3 := Cell (SPeek s3 None)]> h3)) m direct (Some (SelScanning 0))))|..]|intros; lia]]; [done|..].
    + intros b1 _. cbn [run ne ne_body]. cbv zeta. unfold on_ok. rewrite Esk. reflexivity.
    + intros W I b h w s Hh (s' & -> & Hs) _ Hw. destruct (Hsk W h s' w Hh Hs) as (g & s'' & E' & Hg & Hs').
      assert (sim_heap (<[fresh_loc h3 := WCell (WSPeek s'' None)]> g) (<[fresh_loc h3 := Cell (SPeek s3 None)]> h3)) as Hi.
      { apply simh_insert; [done|by repeat constructor]. }
      cbn [wrun wne wne_body]. cbv zeta. unfold won_ok. rewrite E'. cbn [wbind]. cbn [fst snd].
      rewrite (simh_fresh _ _ Hg). cbn. rewrite (simh_fresh _ _ Hi). do 3 eexists.
      split_and!; [reflexivity|apply simh_insert; [done|by repeat constructor]| |done].
      eexists. split; [reflexivity|]. eexists. split; [reflexivity|constructor].
  - cbn [run ne ne_body] in E. unfold on_ok in E.
    destruct (ne (run n) h0 (P b0)) as [| |h1 [s1 r1]] eqn:En; cbn in E; try discriminate.
    destruct (IH k P Q HP _ _ _ _ _ En) as (k' & P1 & Q1 & -> & (Hk & HP1 & H1 & Hst) & Hf). exists k'.
    destruct r1 as [[ev|]|e]; injection E as <- <- <-; do 2 eexists.
    + split; [|split; [split_and!; [done|apply (MF_content k' l tag P1 Q1 HP1)|..]|]]; [done|..].
      * intros b1 Hb. cbn [run ne ne_body]. unfold on_ok. by rewrite H1.
      * intros W I b h w s Hh (s' & -> & Hs) Hb Hw. destruct (Hst W I b h w s' Hh Hs Hb Hw) as (h' & w' & s'' & E' & Hh' & Hs' & Hw').
        cbn [wrun wne wne_body]. unfold won_ok. rewrite E'. cbn. eauto 10.
      * intros j e Hj He. destruct (Hf j e Hj He) as [Hl [= ->]]. split; [by constructor|done].
    + split; [|split; [split_and!; [done|apply (MF_gone k' (SSelectContent (Some (SCClose l tag))))|..]|]]; [done|..].
      * intros b1 Hb. cbn [run ne ne_body]. unfold on_ok. by rewrite H1.
      * intros W I b h w s Hh (s' & -> & Hs) Hb Hw. destruct (Hst W I b h w s' Hh Hs Hb Hw) as (h' & w' & s'' & E' & Hh' & Hs' & Hw').
        cbn [wrun wne wne_body]. unfold won_ok. rewrite E'. cbn. do 3 eexists. split_and!; [done|done|constructor|done].
      * intros j e Hj He. by destruct (Hf j e Hj He) as [Hl [=]].
    + split; [|split; [split_and!; [done|apply (MF_gone k' (SSelectContent None))|..]|]]; [done|..].
      * intros b1 Hb. cbn [run ne ne_body]. unfold on_ok. by rewrite H1.
      * intros W I b h w s Hh (s' & -> & Hs) Hb Hw. destruct (Hst W I b h w s' Hh Hs Hb Hw) as (h' & w' & s'' & E' & Hh' & Hs' & Hw').
        cbn [wrun wne wne_body]. unfold won_ok. rewrite E'. cbn. do 3 eexists. split_and!; [done|done|constructor|done].
      * intros j e1 Hj He. by destruct (Hf j e1 Hj He) as [Hl [=]].
Qed.

Lemma mfam_sk n : forall k P Q, mfam k P Q -> forall b0 h0 h0' s0' r, sk (run n) h0 (P b0) = Done h0' (s0', r) ->
  exists k' P' Q', s0' = P' b0 /\ Goes_on (sk (run n)) (fun W => wsk (wrun n)) k k' b0 P Q P' Q' h0 h0' r /\
    (forall j e, k <= j < k' -> b0 j = fails e -> r = inr e).
Proof.
  induction n as [|n IH]; [discriminate|]. intros k P Q HP b0 h0 h0' s0' r E.
  change (sk_body (run n) h0 (P b0) = Done h0' (s0', r)) in E. unfold sk_body in E.
  destruct (ne (run n) h0 (P b0)) as [| |h1 [s1 r1]] eqn:En; cbn in E; try discriminate.
  destruct (mfam_ne n _ _ _ HP _ _ _ _ _ En) as (k1 & P1 & Q1 & -> & (Hk1 & HP1 & Hsw1 & Hst1) & Hf1).
  destruct (match r1 with inl (Some Noop) => true | _ => false end) eqn:Er.
  - assert (r1 = inl (Some Noop)) as -> by (destruct r1 as [[[]|]|]; done).
    destruct (IH _ _ _ HP1 _ _ _ _ _ E) as (k2 & P2 & Q2 & -> & (Hk2 & HP2 & Hsw2 & Hst2) & Hf2).
    exists k2, P2, Q2. split; [done|]. split; [split_and!; [lia|done|..]|].
    + intros b1 Hb. cbn [run sk]. unfold sk_body. rewrite (Hsw1 b1) by (intros j Hj; apply Hb; lia). cbn.
      apply Hsw2. intros j Hj. apply Hb. lia.
    + intros W I b h w s Hh Hs Hb Hw.
      destruct (Hst1 W I b h w s Hh Hs ltac:(intros j v Hj; apply Hb; lia) Hw) as (h' & w' & s' & E' & Hh' & Hs' & Hw').
      destruct (Hst2 W I b h' w' s' Hh' Hs' ltac:(intros j v Hj; apply Hb; lia) Hw') as (h'' & w'' & s'' & E'' & Hh'' & Hs'' & Hw'').
      exists h'', w'', s''. split_and!; [|done..]. cbn [wrun wsk]. unfold wsk_body. rewrite E'. cbn. exact E''.
    + intros j e Hj He. destruct (decide (j < k1)) as [Hlt|Hge].
      * destruct (Hf1 j e ltac:(lia) He) as [Hl _]. by eapply losing_sk.
      * apply (Hf2 j e); [lia|done].
  - assert (Done h1 (P1 b0, r1) = Done h0' (s0', r)) as [= -> <- ->] by (destruct r1 as [[[]|]|]; done).
    exists k1, P1, Q1. split; [done|]. split; [split_and!; [done|done|..]|].
    + intros b1 Hb. cbn [run sk]. unfold sk_body. rewrite (Hsw1 b1 Hb). cbn. by destruct r as [[[]|]|].
    + intros W I b h w s Hh Hs Hb Hw.
      destruct (Hst1 W I b h w s Hh Hs Hb Hw) as (h' & w' & s' & E' & Hh' & Hs' & Hw').
      exists h', w', s'. split_and!; [|done..]. cbn [wrun wsk]. unfold wsk_body. rewrite E'. cbn. by destruct r as [[[]|]|].
    + intros j e Hj He. by destruct (Hf1 j e Hj He) as [_ ->].
Qed.

Lemma mfam_co n : forall k P Q, mfam k P Q -> forall b0 h0 acc h0' r, co (run n) h0 (P b0) acc = Done h0' r ->
  exists c, k <= c /\
    (forall b1, same b0 b1 k c -> co (run n) h0 (P b1) acc = Done h0' r) /\
    (forall (W : Type) (I : nat -> W -> Prop) b h w s, sim_heap h h0 -> Q W b s -> hands I b b0 k c ->
       I k w -> exists h' w', wco (wrun n) (h, w) s acc = WDone (h', w') r /\ I c w') /\
    (forall j e, k <= j < c -> b0 j = fails e -> r = inr e).
Proof.
  induction n as [|n IH]; intros k P Q HP b0 h0 acc h0' r E; [discriminate|].
  change (co_body (run n) h0 (P b0) acc = Done h0' r) in E. unfold co_body in E.
  destruct (sk (run n) h0 (P b0)) as [| |h1 [s1 r1]] eqn:En; cbn in E; try discriminate.
  destruct (mfam_sk n _ _ _ HP _ _ _ _ _ En) as (k1 & P1 & Q1 & -> & (Hk1 & HP1 & Hsw1 & Hst1) & Hf1).
  destruct r1 as [[ev|]|e1].
  - destruct (IH _ _ _ HP1 _ _ _ _ _ E) as (c & Hc & Hsw2 & Hst2 & Hf2). exists c. split_and!; [lia|..].
    + intros b1 Hb. cbn [run co]. unfold co_body. rewrite (Hsw1 b1) by (intros j Hj; apply Hb; lia). cbn.
      apply Hsw2. intros j Hj. apply Hb. lia.
    + intros W I b h w s Hh Hs Hb Hw.
      destruct (Hst1 W I b h w s Hh Hs ltac:(intros j v Hj; apply Hb; lia) Hw) as (h' & w' & s' & E' & Hh' & Hs' & Hw').
      destruct (Hst2 W I b h' w' s' Hh' Hs' ltac:(intros j v Hj; apply Hb; lia) Hw') as (h'' & w'' & E'' & Hw'').
      exists h'', w''. split; [|done]. cbn [wrun wco]. unfold wco_body. rewrite E'. cbn. exact E''.
    + intros j e Hj He. destruct (decide (j < k1)) as [Hlt|Hge].
      * by specialize (Hf1 j e ltac:(lia) He).
      * apply (Hf2 j e); [lia|done].
  - injection E as <- <-. exists k1. split_and!; [done|..].
    + intros b1 Hb. cbn [run co]. unfold co_body. by rewrite (Hsw1 b1 Hb).
    + intros W I b h w s Hh Hs Hb Hw.
      destruct (Hst1 W I b h w s Hh Hs Hb Hw) as (h' & w' & s' & E' & Hh' & Hs' & Hw').
      exists h', w'. split; [|done]. cbn [wrun wco]. unfold wco_body. by rewrite E'.
    + intros j e Hj He. by specialize (Hf1 j e Hj He).
  - injection E as <- <-. exists k1. split_and!; [done|..].
    + intros b1 Hb. cbn [run co]. unfold co_body. by rewrite (Hsw1 b1 Hb).
    + intros W I b h w s Hh Hs Hb Hw.
      destruct (Hst1 W I b h w s Hh Hs Hb Hw) as (h' & w' & s' & E' & Hh' & Hs' & Hw').
      exists h', w'. split; [|done]. cbn [wrun wco]. unfold wco_body. by rewrite E'.
    + intros j e Hj He. specialize (Hf1 j e Hj He). by injection Hf1 as ->.
Qed.

Lemma core_subselect evs q direct m b1 r : Gives evs (q ++ [OSubselect direct (inl m) b1]) r -> exists c,
  (forall b2, (forall j, j < c -> b2 j = b1 j) -> Gives evs (q ++ [OSubselect direct (inl m) b2]) r) /\
  (forall j e, j < c -> b1 j = fails e -> r = inr e) /\
  (forall (W : Type) (w : nat -> W) b, Calls_in_turn b w b1 c ->
     GivesIn evs (fun v => (v, map stateless_op q ++ [WSubselect direct (inl m) b])) (w 0) r (w c)).
Proof.
  intros (n & h & E). unfold transform in E. rewrite build_app in E.
  destruct (build q ∅ (STemplate evs 0)) as [| |h1 s1] eqn:E1; cbn in E; try discriminate.
  pose proof (MF_start 0 _ _ (MF_open 0 s1 direct m eq_refl)) as HP.
  destruct (mfam_co n 0 _ _ HP b1 h1 [] h r E) as (c & _ & Hsw & Hst & Hf). exists c. split_and!.
  - intros b2 Hb. exists n, h. unfold transform. rewrite build_app, E1. cbn. apply Hsw. intros j Hj. apply Hb. lia.
  - intros j e Hj. apply Hf. lia.
  - intros W w b Hb.
    assert (sim_heap (∅ : gmap loc (wcell W)) ∅) as Hemp by (intros l; rewrite !lookup_empty; constructor).
    pose proof (sim_build q ∅ ∅ (w 0) (WSTemplate evs 0) _ Hemp (M_template evs 0)) as H1. rewrite E1 in H1.
    apply sim_done in H1 as (h1' & s1' & E1' & Hh1 & Hs1).
    destruct (Hst W (fun k v => v = w k) b h1' (w 0) _ Hh1
                ltac:(eexists; split; [reflexivity|]; eexists; split; [reflexivity|exact Hs1])) as (h' & w' & E' & ->).
    + intros j v Hj ->. exists (w (S j)). split; [|done]. apply Hb. lia.
    + done.
    + exists n, h'. unfold wtransform, run_builder. cbn [fst snd]. rewrite wbuild_app, E1'. exact E'.
Qed.

Section Subselect.
  Context (e : bool) (evs : list event) (q : pipeline) (el : tree) (op : event) (F : list tree) (cl : event)
          (direct : bool) (m : selector) (xs : list tree).
  Context (Hm : ElementSelector m) (Hel : ProperTree el) (Hi : Inside el op F cl) (He : Selection e evs)
          (Ht : typed e q true) (Hv : ValidArgs q) (Hq : Gives evs q (inl (tree_events el))).

  Lemma HF : Proper F.
  Proof using Hel Hi. clear - Hel Hi. inversion Hi; subst; [by inversion Hel; subst|intros y []]. Qed.
  Lemma sub_builder_valid b : (forall k, ValidArgs (b k)) -> ValidArgs [OSubselect direct (inl m) b].
  Proof using. intros H. apply valid_args_wrap; try done. intros p [k ->]. apply H. Qed.

  (** What [subselect] gives after the calls [q]. *)
  Lemma after_q b r : ElementBuilder b -> (forall k, ValidArgs (b k)) ->
    Gives (events F) [OSelect direct (inl m) b] r -> Gives evs (q ++ [OSubselect direct (inl m) b]) (around [op] r [cl]).
  Proof.
    intros Hb Hvb Hg. eapply (chain_result e q _ true); [done| | |exact Hq|].
    - eapply LawProofs2.typed_app; [exact Ht|]. apply typed_one. by constructor.
    - apply valid_args_app; [done|]. by apply sub_builder_valid.
    - eapply (contents_select el op F cl Hel Hi); [done|by apply sub_builder_valid|exact Hg].
  Qed.

  Context (p : nat -> pipeline) (n : nat).
  Context (Hp : forall k, k < n -> (exists e, typed true (p k) e) /\ ValidArgs (p k)).
  Notation upto := (upto p).
  Notation first_fails := (first_fails xs p).
  Lemma upto_typed' c d : c <= n -> (exists e, typed true d e) -> ElementBuilder (upto c d).
  Proof using Hp. intros Hc Hd k. unfold SelectStateProofs.upto. destruct (decide _); [apply Hp; lia|done]. Qed.
  Lemma upto_valid' c d : c <= n -> ValidArgs d -> forall k, ValidArgs (upto c d k).
  Proof using Hp. intros Hc Hd k. unfold SelectStateProofs.upto. destruct (decide _); [apply Hp; lia|done]. Qed.

  Lemma in_turn_result {W} rs out (b : builder W) w : n = length xs -> SelectsIn direct m F xs rs out ->
    Calls_in_turn b w p n -> Builds_all p xs rs ->
    GivesIn evs (fun v => (v, map stateless_op q ++ [WSubselect direct (inl m) b])) (w 0) (inl (op :: out ++ [cl])) (w n).
  Proof.
    intros Hn Hs Hc Hr. set (err := expected_open None). set (b1 := upto n (fails err)).
    assert (Gives evs (q ++ [OSubselect direct (inl m) b1]) (inl (op :: out ++ [cl]))) as H1.
    { apply (after_q b1 (inl out)); [by apply upto_typed', fails_typed|by apply upto_valid', fails_valid|].
      eapply select_result; [exact Hm|apply HF|by apply upto_typed', fails_typed| |exact Hs|].
      - apply builder_valid. by apply upto_valid', fails_valid.
      - destruct Hr as [Hl Hr]. split; [done|]. intros k x r Hx Hrr. unfold b1. rewrite upto_lt; [by eapply Hr|].
        subst n. apply nth_error_Some. congruence. }
    destruct (core_subselect _ _ _ _ _ _ H1) as (c & Hsw & Hf & Hst).
    assert (c <= n) as Hle.
    { destruct (decide (c <= n)); [done|]. exfalso. specialize (Hf n err ltac:(lia)).
      unfold b1 in Hf. rewrite upto_ge in Hf by lia. by specialize (Hf eq_refl). }
    assert (c = n) as ->.
    { destruct (decide (c = n)); [done|]. exfalso. assert (c < n) as Hlt by lia.
      assert (Gives evs (q ++ [OSubselect direct (inl m) (upto c (fails err))]) (inl (op :: out ++ [cl]))) as H2.
      { apply Hsw. intros j Hj. unfold b1. by rewrite !upto_lt by lia. }
      assert (Gives evs (q ++ [OSubselect direct (inl m) (upto c (fails err))]) (inr err)) as H3.
      { apply (after_q (upto c (fails err)) (inr err)); [apply upto_typed'; [lia|apply fails_typed]|apply upto_valid'; [lia|apply fails_valid]|].
        eapply select_failure; [exact Hm|apply HF|apply upto_typed'; [lia|apply fails_typed]| |exact Hs|].
        - apply builder_valid. apply upto_valid'; [lia|apply fails_valid].
        - eapply first_fails; [lia|exact Hr]. }
      by pose proof (gives_det _ _ _ _ H2 H3). }
    apply Hst. intros k Hk. unfold b1. rewrite upto_lt by done. by apply Hc.
  Qed.

  Lemma in_turn_failure {W} rs out (b : builder W) w k err : n = S k -> SelectsIn direct m F xs rs out ->
    Calls_in_turn b w p n -> First_failure p xs k err ->
    GivesIn evs (fun v => (v, map stateless_op q ++ [WSubselect direct (inl m) b])) (w 0) (inr err) (w n).
  Proof.
    intros Hn Hs Hc [(x & Hx & Hg) Hr]. set (b1 := upto n (fails (other err))).
    assert (Gives evs (q ++ [OSubselect direct (inl m) b1]) (inr err)) as H1.
    { apply (after_q b1 (inr err)); [by apply upto_typed', fails_typed|by apply upto_valid', fails_valid|].
      eapply (select_failure _ _ _ _ _ _ _ k); [exact Hm|apply HF|by apply upto_typed', fails_typed| |exact Hs|].
      - apply builder_valid. by apply upto_valid', fails_valid.
      - split; [exists x; split; [done|]; unfold b1; rewrite upto_lt by lia; done|].
        intros j y Hj Hy. unfold b1. rewrite upto_lt by lia. by apply Hr. }
    destruct (core_subselect _ _ _ _ _ _ H1) as (c & Hsw & Hf & Hst).
    assert (c <= n) as Hle.
    { destruct (decide (c <= n)); [done|]. exfalso. specialize (Hf n (other err) ltac:(lia)).
      unfold b1 in Hf. rewrite upto_ge in Hf by lia. specialize (Hf eq_refl). injection Hf as Hf.
      by apply (other_not err). }
    assert (c = n) as ->.
    { destruct (decide (c = n)); [done|]. exfalso. assert (c <= k) as Hlt by lia.
      assert (Gives evs (q ++ [OSubselect direct (inl m) (upto c [])]) (inr err)) as H2.
      { apply Hsw. intros j Hj. unfold b1. by rewrite !upto_lt by lia. }
      assert (forall j y, nth_error xs j = Some y -> exists r, Gives (tree_events y) (upto c [] j) (inl r)) as Hall.
      { intros j y Hy. unfold upto. destruct (decide (j < c)); [apply Hr; [lia|done]|].
        exists (tree_events y). apply identity_result, well_nested_tree.
        eapply (selects_in_element direct m F xs); [exact Hm|exact Hs|apply HF|]. eapply nth_error_In, Hy. }
      assert (exists rs', Builds_all (upto c []) xs rs') as [rs' Hrs].
      { clear - Hall. revert Hall. generalize (upto c []). induction xs as [|y ys IH] using rev_ind; intros b0 Hall.
        - exists []. split; [done|]. intros [|]; discriminate.
        - destruct (IH b0) as (rs' & Hl & H').
          { intros j z Hz. apply Hall. rewrite nth_error_app1; [done|]. apply nth_error_Some. congruence. }
          destruct (Hall (length ys) y) as [r Hr]; [by rewrite nth_error_app2, Nat.sub_diag by lia|].
          exists (rs' ++ [r]). split; [rewrite !app_length; simpl; lia|]. intros j z r' Hz Hr'.
          destruct (decide (j < length ys)) as [Hj|Hj].
          + rewrite nth_error_app1 in Hz by done. rewrite nth_error_app1 in Hr' by lia. by eapply H'.
          + assert (j = length ys) as ->.
            { assert (j < length (ys ++ [y])) by (apply nth_error_Some; congruence).
              rewrite app_length in H. simpl in H. lia. }
            rewrite nth_error_app2, Nat.sub_diag in Hz by lia. rewrite Hl in Hr'.
            rewrite nth_error_app2, Nat.sub_diag in Hr' by lia. injection Hz as <-. injection Hr' as <-. done. }
      destruct (selects_in_refill _ _ _ _ _ _ Hs rs') as [out' Hs']; [by destruct Hrs|].
      assert (Gives evs (q ++ [OSubselect direct (inl m) (upto c [])]) (inl (op :: out' ++ [cl]))) as H3.
      { apply (after_q (upto c []) (inl out')); [apply upto_typed'; [lia|apply nil_typed]|apply upto_valid'; [lia|apply empty_valid]|].
        eapply select_result; [exact Hm|apply HF|apply upto_typed'; [lia|apply nil_typed]| |exact Hs'|exact Hrs].
        apply builder_valid. apply upto_valid'; [lia|apply empty_valid]. }
      by pose proof (gives_det _ _ _ _ H2 H3). }
    apply Hst. intros j Hj. unfold b1. rewrite upto_lt by done. by apply Hc.
  Qed.
End Subselect.

(** A void element *)
Lemma subselect_state_void e evs q t a direct m : Selection e evs -> typed e q true -> ValidArgs q ->
  Gives evs q (inl [VoidTag t a]) -> ProperTree (Leaf (VoidTag t a)) -> forall (W : Type) (b : builder W) w,
  GivesIn evs (fun v => (v, map stateless_op q ++ [WSubselect direct (inl m) b])) w (inl [VoidTag t a]) w.
Proof.
  intros He Ht Hv Hq Hx W b w. set (b1 := fun _ : nat => fails (expected_open None)).
  assert (ElementBuilder b1) as Hb by (intros k; apply fails_typed).
  assert (ValidArgs [OSubselect direct (inl m) b1]) as Hvb.
  { apply valid_args_wrap; try done. intros p [k ->]. apply fails_valid. }
  assert (typed true [OSubselect direct (inl m) b1] true) as Htb by (apply typed_one; by constructor).
  assert (Gives evs (q ++ [OSubselect direct (inl m) b1]) (inl [VoidTag t a])) as H1.
  { eapply (chain_result e q _ true); [done|eapply LawProofs2.typed_app; [exact Ht|exact Htb]|by apply valid_args_app|exact Hq|].
    by eapply contents_void; [constructor|exact Htb|..]. }
  destruct (core_subselect _ _ _ _ _ _ H1) as (c & _ & Hf & Hst). destruct c as [|c].
  - apply (Hst W (fun _ => w) b). intros k Hk. lia.
  - by specialize (Hf 0 (expected_open None) ltac:(lia) eq_refl).
Qed.
