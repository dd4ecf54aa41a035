(** Lemmas for C86: [select_once] with a closure that has state. *)
From Coq Require Import Bool List Lia.
From stdpp Require Import gmap.
From Verif Require Import Text Event Input Parse Selector Machine Template MachineState.
From Verif Require Import SpecTree SpecTransform SpecOps SpecState TreeProofs SelectionProofs OpProofs LawProofs3 ApiProofs ApiProofs2 ReachProofs.
From Verif Require Import FuelProofs StateProofs StateProofs2 StateProofs3 StateProofs4 StateProofs6 SelectStateProofs.
Local Open Scope nat_scope.

(** [select_once] while nothing has been selected, and when it has ended without that. *)
Definition pend l m direct p (x : option (bool * nat)) : strm :=
  match x with
  | None => SFallible None
  | Some (false, level) => SFallible (Some (FStart (inl (SSelectOnce l (Some (SelOScanning m p direct level))))))
  | Some (true, level) => SFallible (Some (FEmit (SSelectOnce l (Some (SelOScanning m p direct level)))))
  end.
Definition wpend {W} l m direct (b : once W) (x : option (bool * nat)) : wstrm W :=
  match x with
  | None => WSFallible None
  | Some (false, level) => WSFallible (Some (WFStart (inl (WSSelectOnce l (Some (WSelOScanning m b direct level))))))
  | Some (true, level) => WSFallible (Some (WFEmit (WSSelectOnce l (Some (WSelOScanning m b direct level)))))
  end.
(** The calls have been made, and are those of [fails e]. *)
Definition lost (e : stream_error) (s : strm) : Prop :=
  exists l, s = SFallible (Some (FEmit (SSelectOnce l (Some (SelOActive (SFallible (Some (FStart (inr e))))))))).

Section Once.
  Context (l : loc) (m : selector) (direct : bool).
  Notation pend := (pend l m direct).
  Notation wpend := (wpend l m direct).

  (** A step before the closure is called, and the one that calls it. *)
  Definition Before (f0 : heap -> strm -> step_out)
      (f : forall W : Type, wheap W -> wstrm W -> wout W (wstrm W * (option event + stream_error))) h0 x h0' s0' r : Prop :=
    exists x', (forall p, f0 h0 (pend p x) = Done h0' (pend p x', r)) /\ (exists p, s0' = pend p x') /\
      forall (W : Type) (b : once W) h w, sim_heap h h0 ->
        exists h', f W (h, w) (wpend b x) = WDone (h', w) (wpend b x', r) /\ sim_heap h' h0'.
  Definition Calls (f : forall W : Type, wheap W -> wstrm W -> wout W (wstrm W * (option event + stream_error)))
      p h0 x h0' s0' r : Prop :=
    forall (W : Type) (b : once W) h w w', sim_heap h h0 -> b w = (w', map stateless_op p) ->
      exists h' s', f W (h, w) (wpend b x) = WDone (h', w') (s', r) /\ sim_heap h' h0' /\ sim s' s0'.

  Lemma pend_ne n p h0 x h0' s0' r : ne (run n) h0 (pend p x) = Done h0' (s0', r) ->
    (Before (ne (run n)) (fun W => wne (wrun n)) h0 x h0' s0' r /\ (exists x', s0' = pend p x')) \/
    (Calls (fun W => wne (wrun n)) p h0 x h0' s0' r /\
     forall e, p = fails e -> lost e s0' /\ r = inl (Some Noop)).
  Proof.
    destruct n as [|n]; [discriminate|]. intros E. destruct x as [[[] level]|].
    - cbn [pend] in E. cbn [OnceStateProofs.pend] in E. cbn [run ne ne_body] in E. unfold passthrough, on_ok in E.
      destruct n as [|n]; [discriminate|].
      cbn [run ne ne_body] in E. unfold on_ok in E.
      destruct (sk (run n) h0 (SShared l)) as [| |h1 [s1 r1]] eqn:Esk; cbn in E; try discriminate.
      assert (forall W (h : gmap loc (wcell W)) w, sim_heap h h0 -> exists h' s',
        wsk (wrun n) (h, w) (WSShared l) = WDone (h', w) (s', r1) /\ sim_heap h' h1) as Hsk.
      { intros W h w Hh. pose proof (@m_sk W _ _ (run_sim n) h h0 w _ _ Hh (M_shared l)) as H. rewrite Esk in H.
        apply sim_done in H as (h' & [s' r'] & E' & Hh' & [Hs' Hr]). cbn in Hr. subst. eauto. }
      destruct r1 as [[ev|]|e].
      + destruct (include direct level && matches m ev) eqn:Em.
        * destruct (build p h1 (SSingle (Some (SEStart ev (SShared l))))) as [| |h2 s2] eqn:Eb;
            cbn in E; try discriminate. injection E as <- <- <-. right. split.
          -- intros W b h w w' Hh Ew. destruct (Hsk W h w Hh) as (h' & s' & E' & Hh').
             destruct (hands_builder _ _ _ _ _ _ _ (WSSingle (Some (WSEStart ev (WSShared l)))) _ _ Ew Hh'
                    ltac:(repeat constructor) Eb) as (h2' & s2' & E2 & Hh2 & Hs2).
             cbn [OnceStateProofs.wpend wrun wne wne_body]. unfold wpassthrough, won_ok. rewrite E'. cbn. rewrite Em. cbn. rewrite E2. cbn.
             do 2 eexists. split_and!; [reflexivity|done|by repeat constructor].
          -- intros e ->. cbn in Eb. injection Eb as <- <-. split; [|done]. eexists. reflexivity.
        * left. destruct (adjust level ev) as [nl|err] eqn:Ea; cbn in E; injection E as <- <- <-;
            [split; [exists (Some (true, nl))|by exists (Some (true, nl))]|split; [exists None|by exists None]]; (split_and!; [|by exists p|]).
          1,3: intros p1; cbn [OnceStateProofs.pend run ne ne_body]; unfold passthrough, on_ok; rewrite Esk; cbn; rewrite Em; cbn; by rewrite Ea.
          all: intros W b h w Hh; destruct (Hsk W h w Hh) as (h' & s' & E' & Hh');
             cbn [OnceStateProofs.wpend wrun wne wne_body]; unfold wpassthrough, won_ok; rewrite E'; cbn; rewrite Em; cbn; rewrite Ea; cbn; eauto.
      + left. injection E as <- <- <-. split; [|by exists None]. exists None. split_and!; [|by exists p|].
        * intros p1; cbn [OnceStateProofs.pend run ne ne_body]; unfold passthrough, on_ok; by rewrite Esk.
        * intros W b h w Hh; destruct (Hsk W h w Hh) as (h' & s' & E' & Hh');
             cbn [OnceStateProofs.wpend wrun wne wne_body]; unfold wpassthrough, won_ok; rewrite E'; cbn; eauto.
      + left. injection E as <- <- <-. split; [|by exists None]. exists None. split_and!; [|by exists p|].
        * intros p1; cbn [OnceStateProofs.pend run ne ne_body]; unfold passthrough, on_ok; by rewrite Esk.
        * intros W b h w Hh; destruct (Hsk W h w Hh) as (h' & s' & E' & Hh');
             cbn [OnceStateProofs.wpend wrun wne wne_body]; unfold wpassthrough, won_ok; rewrite E'; cbn; eauto.
    - cbn in E. injection E as <- <- <-. left. split; [|by exists (Some (true, level))]. exists (Some (true, level)).
      split_and!; [done|by exists p|]. intros W b h w Hh. by exists h.
    - cbn in E. injection E as <- <- <-. left. split; [|by exists None]. exists None.
      split_and!; [done|by exists p|]. intros W b h w Hh. by exists h.
  Qed.

  Lemma lost_ne n e h s h' s' r : lost e s -> ne (run n) h s = Done h' (s', r) -> r = inr e.
  Proof.
    intros [l' ->] E. destruct n as [|[|[|n]]]; try discriminate. cbn in E. by injection E as <- <- <-.
  Qed.
  Lemma lost_sk n e h s h' s' r : lost e s -> sk (run n) h s = Done h' (s', r) -> r = inr e.
  Proof.
    intros Hl E. destruct n as [|n]; [discriminate|]. change (sk_body (run n) h s = Done h' (s', r)) in E. unfold sk_body in E.
    destruct (ne (run n) h s) as [| |h1 [s1 r1]] eqn:En; cbn in E; try discriminate.
    pose proof (lost_ne _ _ _ _ _ _ _ Hl En) as ->. by injection E as <- <- <-.
  Qed.

  Lemma pend_sk n p : forall h0 x h0' s0' r, sk (run n) h0 (pend p x) = Done h0' (s0', r) ->
    (Before (sk (run n)) (fun W => wsk (wrun n)) h0 x h0' s0' r /\ (exists x', s0' = pend p x')) \/
    (Calls (fun W => wsk (wrun n)) p h0 x h0' s0' r /\ forall e, p = fails e -> r = inr e).
  Proof.
    induction n as [|n IH]; [discriminate|]. intros h0 x h0' s0' r E.
    change (sk_body (run n) h0 (pend p x) = Done h0' (s0', r)) in E. unfold sk_body in E.
    destruct (ne (run n) h0 (pend p x)) as [| |h1 [s1 r1]] eqn:En; cbn in E; try discriminate.
    destruct (match r1 with inl (Some Noop) => true | _ => false end) eqn:Er.
    - assert (r1 = inl (Some Noop)) as -> by (destruct r1 as [[[]|]|]; done).
      destruct (pend_ne _ _ _ _ _ _ _ En) as [[(x1 & Hp1 & _ & Hst1) _]|[Hc Hf]].
      + assert (s1 = pend p x1) as ->. { rewrite Hp1 in En. by injection En as <-. }
        destruct (IH _ _ _ _ _ E) as [[(x2 & Hp2 & _ & Hst2) [x3 ->]]|[Hc Hf]].
        * left. split; [|by exists x3]. exists x2. split_and!.
          -- intros p1. cbn [run sk]. unfold sk_body. rewrite Hp1. cbn. apply Hp2.
          -- exists p. specialize (Hp2 p). rewrite E in Hp2. by injection Hp2.
          -- intros W b h w Hh. destruct (Hst1 W b h w Hh) as (h' & E1 & Hh').
             destruct (Hst2 W b h' w Hh') as (h'' & E2 & Hh''). exists h''. split; [|done].
             cbn [wrun wsk]. unfold wsk_body. rewrite E1. cbn. exact E2.
        * right. split; [|done]. intros W b h w w' Hh Eb. destruct (Hst1 W b h w Hh) as (h' & E1 & Hh').
          destruct (Hc W b h' w w' Hh' Eb) as (h'' & s'' & E2 & Hh'' & Hs''). exists h'', s''. split; [|done].
          cbn [wrun wsk]. unfold wsk_body. rewrite E1. cbn. exact E2.
      + right. split.
        * intros W b h w w' Hh Eb. destruct (Hc W b h w w' Hh Eb) as (h' & s' & E1 & Hh' & Hs').
          pose proof (@m_sk W _ _ (run_sim n) h' h1 w' _ _ Hh' Hs') as H. rewrite E in H.
          apply sim_done in H as (h'' & [s'' r''] & E2 & Hh'' & [Hs'' Hr]). cbn in Hr, Hs''. subst r''.
          exists h'', s''. split; [|done]. cbn [wrun wsk]. unfold wsk_body. rewrite E1. cbn. exact E2.
        * intros e He. destruct (Hf e He) as [Hl _]. by eapply lost_sk.
    - assert (Done h1 (s1, r1) = Done h0' (s0', r)) as [= -> -> ->] by (destruct r1 as [[[]|]|]; done).
      destruct (pend_ne _ _ _ _ _ _ _ En) as [[(x1 & Hp1 & Hx & Hst1) Hx1]|[Hc Hf]].
      + left. split; [|done]. exists x1. split_and!; [|done|].
        * intros p1. cbn [run sk]. unfold sk_body. rewrite Hp1. cbn. by destruct r as [[[]|]|].
        * intros W b h w Hh. destruct (Hst1 W b h w Hh) as (h' & E1 & Hh'). exists h'. split; [|done].
          cbn [wrun wsk]. unfold wsk_body. rewrite E1. cbn. by destruct r as [[[]|]|].
      + right. split.
        * intros W b h w w' Hh Eb. destruct (Hc W b h w w' Hh Eb) as (h' & s' & E1 & Hh' & Hs').
          exists h', s'. split; [|done]. cbn [wrun wsk]. unfold wsk_body. rewrite E1. cbn. by destruct r as [[[]|]|].
        * intros e He. by destruct (Hf e He) as [_ ->].
  Qed.

  Lemma pend_co n p : forall h0 x acc h0' r, co (run n) h0 (pend p x) acc = Done h0' r ->
    ((forall p1, co (run n) h0 (pend p1 x) acc = Done h0' r) /\
     forall (W : Type) (b : once W) h w, sim_heap h h0 -> exists h', wco (wrun n) (h, w) (wpend b x) acc = WDone (h', w) r) \/
    ((forall (W : Type) (b : once W) h w w', sim_heap h h0 -> b w = (w', map stateless_op p) ->
        exists h', wco (wrun n) (h, w) (wpend b x) acc = WDone (h', w') r) /\
     forall e, p = fails e -> r = inr e).
  Proof.
    induction n as [|n IH]; intros h0 x acc h0' r E; [discriminate|].
    change (co_body (run n) h0 (pend p x) acc = Done h0' r) in E. unfold co_body in E.
    destruct (sk (run n) h0 (pend p x)) as [| |h1 [s1 r1]] eqn:En; cbn in E; try discriminate.
    destruct (pend_sk _ _ _ _ _ _ _ En) as [[(x1 & Hp1 & _ & Hst1) _]|[Hc Hf]].
    - assert (s1 = pend p x1) as ->. { rewrite Hp1 in En. by injection En as <-. }
      destruct r1 as [[ev|]|e1].
      + destruct (IH _ _ _ _ _ E) as [[Hp2 Hst2]|[Hc Hf]].
        * left. split.
          -- intros p1. cbn [run co]. unfold co_body. rewrite Hp1. cbn. apply Hp2.
          -- intros W b h w Hh. destruct (Hst1 W b h w Hh) as (h' & E1 & Hh').
             destruct (Hst2 W b h' w Hh') as (h'' & E2). exists h''.
             cbn [wrun wco]. unfold wco_body. rewrite E1. cbn. exact E2.
        * right. split; [|done]. intros W b h w w' Hh Eb. destruct (Hst1 W b h w Hh) as (h' & E1 & Hh').
          destruct (Hc W b h' w w' Hh' Eb) as (h'' & E2). exists h''.
          cbn [wrun wco]. unfold wco_body. rewrite E1. cbn. exact E2.
      + injection E as <- <-. left. split.
        * intros p1. cbn [run co]. unfold co_body. by rewrite Hp1.
        * intros W b h w Hh. destruct (Hst1 W b h w Hh) as (h' & E1 & Hh'). exists h'.
          cbn [wrun wco]. unfold wco_body. by rewrite E1.
      + injection E as <- <-. left. split.
        * intros p1. cbn [run co]. unfold co_body. by rewrite Hp1.
        * intros W b h w Hh. destruct (Hst1 W b h w Hh) as (h' & E1 & Hh'). exists h'.
          cbn [wrun wco]. unfold wco_body. by rewrite E1.
    - right. split.
      + intros W b h w w' Hh Eb. destruct (Hc W b h w w' Hh Eb) as (h' & s' & E1 & Hh' & Hs').
        destruct r1 as [[ev|]|e1].
        * pose proof (@m_co W _ _ (run_sim n) h' h1 w' _ _ (acc ++ [ev]) Hh' Hs') as H. 
          rewrite E in H.
          apply sim_done in H as (h'' & r'' & E2 & Hh'' & Hr). cbn in Hr. subst r''.
          exists h''. cbn [wrun wco]. unfold wco_body. rewrite E1. cbn. exact E2.
        * injection E as <- <-. exists h'. cbn [wrun wco]. unfold wco_body. by rewrite E1.
        * injection E as <- <-. exists h'. cbn [wrun wco]. unfold wco_body. by rewrite E1.
      + intros e He. specialize (Hf e He). subst r1. by injection E as <- <-.
  Qed.
End Once.

(** ** From outside *)

Lemma core_once evs q direct m p r : Gives evs (q ++ [OSelectOnce direct (inl m) p]) r ->
  ((forall p1, Gives evs (q ++ [OSelectOnce direct (inl m) p1]) r) /\
   forall (W : Type) (b : once W) w,
     GivesIn evs (fun v => (v, map stateless_op q ++ [WSelectOnce direct (inl m) b])) w r w) \/
  ((forall e, p = fails e -> r = inr e) /\
   forall (W : Type) (b : once W) w w', b w = (w', map stateless_op p) ->
     GivesIn evs (fun v => (v, map stateless_op q ++ [WSelectOnce direct (inl m) b])) w r w').
Proof.
  intros (n & h & E). unfold transform in E. rewrite build_app in E.
  destruct (build q ∅ (STemplate evs 0)) as [| |h1 s1] eqn:E1; cbn in E; try discriminate.
  change (co (run n) (<[fresh_loc h1:=Cell s1]> h1)
            (pend (fresh_loc h1) m direct p (Some (false, 0))) [] = Done h r) in E.
  assert (forall W (w : W), exists h1' s1', wbuild (map stateless_op q) (∅, w) (WSTemplate evs 0) = WDone (h1', w) s1' /\
    sim_heap h1' h1 /\ sim s1' s1) as Hb.
  { intros W w. assert (sim_heap (∅ : gmap loc (wcell W)) ∅) as Hemp by (intros l; rewrite !lookup_empty; constructor).
    pose proof (sim_build q ∅ ∅ w (WSTemplate evs 0) _ Hemp (M_template evs 0)) as H1. rewrite E1 in H1.
    apply sim_done in H1 as (h1' & s1' & E1' & Hh1 & Hs1). eauto. }
  destruct (pend_co _ _ _ n _ _ _ _ _ _ E) as [[Hp Hst]|[Hst Hf]]; [left|right]; split.
  - intros p1. exists n, h. unfold transform. rewrite build_app, E1. cbn. apply Hp.
  - intros W b w. destruct (Hb W w) as (h1' & s1' & E1' & Hh1 & Hs1).
    destruct (Hst W b (<[fresh_loc h1:=WCell s1']> h1') w) as [h' E']; [apply simh_insert; [done|by constructor]|].
    exists n, h'. unfold wtransform, run_builder. cbn [fst snd]. rewrite wbuild_app, E1'. cbn.
    rewrite (simh_fresh _ _ Hh1). exact E'.
  - exact Hf.
  - intros W b w w' Eb. destruct (Hb W w) as (h1' & s1' & E1' & Hh1 & Hs1).
    destruct (Hst W b (<[fresh_loc h1:=WCell s1']> h1') w w') as [h' E']; [apply simh_insert; [done|by constructor]|done|].
    exists n, h'. unfold wtransform, run_builder. cbn [fst snd]. rewrite wbuild_app, E1'. cbn.
    rewrite (simh_fresh _ _ Hh1). exact E'.
Qed.

Lemma not_called evs q direct m r : (forall e, Gives evs (q ++ [OSelectOnce direct (inl m) (fails e)]) (inl r)) ->
  forall (W : Type) (b : once W) w,
     GivesIn evs (fun v => (v, map stateless_op q ++ [WSelectOnce direct (inl m) b])) w (inl r) w.
Proof.
  intros Hf. destruct (core_once _ _ _ _ _ _ (Hf (expected_open None))) as [[_ H]|[H _]]; [exact H|].
  by specialize (H _ eq_refl).
Qed.
Lemma is_called evs q direct m p r : (forall e, Gives evs (q ++ [OSelectOnce direct (inl m) (fails e)]) (inr e)) ->
  Gives evs (q ++ [OSelectOnce direct (inl m) p]) r ->
  forall (W : Type) (b : once W) w w', b w = (w', map stateless_op p) ->
     GivesIn evs (fun v => (v, map stateless_op q ++ [WSelectOnce direct (inl m) b])) w r w'.
Proof.
  intros Hf Hr. destruct (core_once _ _ _ _ _ _ Hr) as [[H _]|[_ H]]; [|exact H]. exfalso.
  destruct r as [r|e].
  - by pose proof (gives_det _ _ _ _ (H (fails (expected_open None))) (Hf (expected_open None))).
  - pose proof (gives_det _ _ _ _ (H (fails (other e))) (Hf (other e))) as [= E]. by apply (other_not e).
Qed.

(** ** After calls without state *)

Lemma fails_fails evs e : Gives evs (fails e) (inr e).
Proof. exists 3. eexists. reflexivity. Qed.

Section After.
  Context (e e1 : bool) (evs : list event) (q : pipeline) (evs1 : list event).
  Context (He : Selection e evs) (Ht : typed e q e1) (Hv : ValidArgs q) (Hq : Gives evs q (inl evs1)).

  Lemma after_once direct m p e2 r : typed true p e2 -> ValidArgs p ->
    Gives evs1 [OSelectOnce direct (inl m) p] r -> Gives evs (q ++ [OSelectOnce direct (inl m) p]) r.
  Proof.
    intros Hp Hvp Hg. eapply (chain_result e q _ false); [done| | |exact Hq|exact Hg].
    - eapply LawProofs2.typed_app; [exact Ht|]. by eapply typed_select_once.
    - apply valid_args_app; [done|]. by apply valid_args_select_once.
  Qed.

  Lemma once_state m pre x post p e2 r : WellNested evs1 -> evs1 = pre ++ tree_events x ++ post ->
    ProperTree x -> IsElement x -> (forall ev, In ev pre -> matches m ev = false) -> matches m (start x) = true ->
    typed true p e2 -> ValidArgs p -> Gives (tree_events x) p r ->
    forall (W : Type) (b : once W) w w', b w = (w', map stateless_op p) ->
    GivesIn evs (fun v => (v, map stateless_op q ++ [WSelectOnce false (inl m) b])) w (around pre r post) w'.
  Proof.
    intros Hn E1 Hx Hel Hpre Hm Hp Hvp Hr. apply is_called.
    - intros err. destruct (fails_typed err) as [e3 H3]. eapply after_once; [exact H3|apply fails_valid|].
      apply (once_result m evs1 pre x post (fails err) e3 (inr err)); try done;
        [apply valid_args_select_once, fails_valid|apply fails_fails].
    - eapply after_once; [exact Hp|done|]. eapply once_result; try done. by apply valid_args_select_once.
  Qed.
  Lemma once_state_none direct m : WellNested evs1 -> (forall ev, In ev evs1 -> matches m ev = false) ->
    forall (W : Type) (b : once W) w,
    GivesIn evs (fun v => (v, map stateless_op q ++ [WSelectOnce direct (inl m) b])) w (inl evs1) w.
  Proof.
    intros Hn Hno. apply not_called. intros err. destruct (fails_typed err) as [e3 H3].
    eapply after_once; [exact H3|apply fails_valid|].
    eapply once_no_match; [done|exact H3|apply valid_args_select_once, fails_valid|done].
  Qed.
  Lemma once_direct_state m F1 x F2 p e2 r : evs1 = events (F1 ++ x :: F2) -> Proper (F1 ++ x :: F2) -> IsElement x ->
    (forall y, In y F1 -> matches m (start y) = false) -> matches m (start x) = true ->
    typed true p e2 -> ValidArgs p -> Gives (tree_events x) p r ->
    forall (W : Type) (b : once W) w w', b w = (w', map stateless_op p) ->
    GivesIn evs (fun v => (v, map stateless_op q ++ [WSelectOnce true (inl m) b])) w (around (events F1) r (events F2)) w'.
  Proof.
    intros E1 HF Hel Hpre Hm Hp Hvp Hr. apply is_called.
    - intros err. destruct (fails_typed err) as [e3 H3]. eapply after_once; [exact H3|apply fails_valid|].
      rewrite E1. apply (once_direct_result m F1 x F2 (fails err) e3 (inr err)); try done;
        [apply valid_args_select_once, fails_valid|apply fails_fails].
    - eapply after_once; [exact Hp|done|]. rewrite E1. eapply once_direct_result; try done.
      by apply valid_args_select_once.
  Qed.
  Lemma once_direct_state_none m F : evs1 = events F -> Proper F -> (forall y, In y F -> matches m (start y) = false) ->
    forall (W : Type) (b : once W) w,
    GivesIn evs (fun v => (v, map stateless_op q ++ [WSelectOnce true (inl m) b])) w (inl evs1) w.
  Proof.
    intros E1 HF Hno. apply not_called. intros err. destruct (fails_typed err) as [e3 H3].
    eapply after_once; [exact H3|apply fails_valid|]. rewrite E1.
    eapply once_direct_no_match; [done|exact H3|apply valid_args_select_once, fails_valid|done].
  Qed.
End After.

(** ** [subselect_contents] *)

Lemma core_contents evs q p r : Gives evs (q ++ [OSubselectContents p]) r ->
  ((forall p1, Gives evs (q ++ [OSubselectContents p1]) r) /\
   forall (W : Type) (b : once W) w,
     GivesIn evs (fun v => (v, map stateless_op q ++ [WSubselectContents b])) w r w) \/
  ((forall e, p = fails e -> r = inr e) /\
   forall (W : Type) (b : once W) w w', b w = (w', map stateless_op p) ->
     GivesIn evs (fun v => (v, map stateless_op q ++ [WSubselectContents b])) w r w').
Proof.
  intros (n & h & E). unfold transform in E. rewrite build_app in E.
  destruct (build q ∅ (STemplate evs 0)) as [| |h1 s1] eqn:E1; cbn in E; try discriminate.
  assert (forall W (w : W), exists h1' s1', wbuild (map stateless_op q) (∅, w) (WSTemplate evs 0) = WDone (h1', w) s1' /\
    sim_heap h1' h1 /\ sim s1' s1) as Hb.
  { intros W w. assert (sim_heap (∅ : gmap loc (wcell W)) ∅) as Hemp by (intros l; rewrite !lookup_empty; constructor).
    pose proof (sim_build q ∅ ∅ w (WSTemplate evs 0) _ Hemp (M_template evs 0)) as H1. rewrite E1 in H1.
    apply sim_done in H1 as (h1' & s1' & E1' & Hh1 & Hs1). eauto. }
  set (P p := SSelectContent (Some (SCOpen s1 (CBUser p)))).
  change (co (run n) h1 (P p) [] = Done h r) in E.
  destruct n as [|n]; [discriminate|].
  change (co_body (run n) h1 (P p) [] = Done h r) in E. unfold co_body in E.
  destruct n as [|n]; [discriminate|].
  change (sk (run (S n)) h1 (P p)) with (sk_body (run n) h1 (P p)) in E. unfold sk_body in E.
  destruct n as [|n]; [discriminate|].
  destruct (ne (run (S n)) h1 (P p)) as [| |h2 [s2 r2]] eqn:En; cbn [obind] in E; try discriminate.
  pose proof En as En0. cbn [P run ne ne_body] in En. cbv zeta in En. unfold on_ok in En.
  destruct (sk (run n) h1 (SExpand (Some (XStart s1)))) as [| |h3 [s3 r3]] eqn:Esk; cbn in En; try discriminate.
  assert (forall W (g : gmap loc (wcell W)) s w, sim_heap g h1 -> sim s s1 -> exists h' s',
    wsk (wrun n) (g, w) (WSExpand (Some (WXStart s))) = WDone (h', w) (s', r3) /\ sim_heap h' h3 /\ sim s' s3) as Hsk.
  { intros W g s w Hg Hs. assert (sim (WSExpand (Some (WXStart s))) (SExpand (Some (XStart s1)))) as Hx by by constructor.
    pose proof (@m_sk W _ _ (run_sim n) g h1 w _ _ Hg Hx) as H. rewrite Esk in H.
    apply sim_done in H as (h' & [s' r'] & E' & Hh' & [Hs' Hr]). cbn in Hr, Hs'. subst. eauto. }
  assert ((exists tag attrs, r3 = inl (Some (OpeningTag tag attrs))) \/
    (s2 = SSelectContent None /\ h2 = h3 /\ r2 <> inl (Some Noop) /\
     (forall p1, ne (run (S n)) h1 (P p1) = Done h2 (s2, r2)) /\
     forall W (b : once W) g s w, sim_heap g h1 -> sim s s1 -> exists h',
       wne (wrun (S n)) (g, w) (WSSelectContent (Some (WSCOpen s (WCBUser b)))) = WDone (h', w) (WSSelectContent None, r2) /\
       sim_heap h' h3)) as [H|H].
  { destruct r3 as [[ev|]|err]; [destruct ev|..]; cbn in En; try (left; eauto; fail); right;
      injection En as <- <- <-;
      (split_and!; [done|done|try done; discriminate
                   |intros p1; cbn [P run ne ne_body]; cbv zeta; unfold on_ok; by rewrite Esk|]);
      intros W b g s w Hg Hs; destruct (Hsk W g s w Hg Hs) as (h' & s' & E' & Hh' & Hs');
      cbn [wrun wne wne_body]; cbv zeta; unfold won_ok; rewrite E'; cbn; eauto. }
  - right. destruct H as (tag & attrs & ->). cbn in En.
    destruct (build p _ _) as [| |h4 s4] eqn:Eb in En; cbn in En; try discriminate. injection En as <- <- <-.
    change (co (run (S (S n))) h4 (SSelectContent (Some (SCContent (fresh_loc h3) s4 tag))) [OpeningTag tag attrs] = Done h r) in E.
    split.
    + intros e ->. cbn in Eb. injection Eb as <- <-. destruct n as [|[|n]]; try discriminate. cbn in E. by injection E as <- <-.
    + intros W b w w' Ew. destruct (Hb W w) as (g & s & E1' & Hg & Hs).
      destruct (Hsk W g s w Hg Hs) as (g3 & s3' & E3 & Hg3 & Hs3).
      assert (sim_heap (<[fresh_loc h3 := WCell (WSPeek s3' None)]> g3) (<[fresh_loc h3 := Cell (SPeek s3 None)]> h3)) as Hi.
      { apply simh_insert; [done|by repeat constructor]. }
      destruct (hands_builder b p w w' (<[fresh_loc h3 := WCell (WSPeek s3' None)]> g3) _ _
                 (WSCurrentContent (Some (tag, fresh_loc h3, 0))) _ _ Ew Hi
                 ltac:(constructor) Eb) as (g4 & s4' & E4 & Hg4 & Hs4).
      pose proof (@m_co W _ _ (run_sim (S (S n))) g4 h4 w' (WSSelectContent (Some (WSCContent (fresh_loc h3) s4' tag))) _
                    [OpeningTag tag attrs] Hg4 (M_sc_content _ _ _ tag Hs4)) as H. rewrite E in H.
      apply sim_done in H as (g5 & r5 & E5 & _ & Hr). cbn in Hr. subst r5.
      exists (S (S (S n))), g5. unfold wtransform, run_builder. cbn [fst snd]. rewrite wbuild_app, E1'.
      change (wco_body (wrun (S (S n))) (g, w) (WSSelectContent (Some (WSCOpen s (WCBUser b)))) [] = WDone (g5, w') r).
      unfold wco_body.
      change (wsk (@wrun W (S (S n)))) with (wsk_body (@wrun W (S n))). unfold wsk_body.
      cbn [wrun wne wne_body]. cbv zeta. unfold won_ok. rewrite E3. cbn [wbind]. cbn [fst snd].
      rewrite (simh_fresh _ _ Hg3). cbn [wbuild_content]. rewrite E4. cbn. exact E5.
  - left. destruct H as (-> & -> & Hr2 & Hp & Hst). split.
    + intros p1. exists (S (S (S n))), h. unfold transform. rewrite build_app, E1.
      change (co_body (run (S (S n))) h1 (P p1) [] = Done h r). unfold co_body.
      change (sk (run (S (S n)))) with (sk_body (run (S n))). unfold sk_body. rewrite Hp. exact E.
    + intros W b w. destruct (Hb W w) as (g & s & E1' & Hg & Hs). destruct (Hst W b g s w Hg Hs) as (g3 & E3 & Hg3).
      assert (exists g5, wco_body (wrun (S (S n))) (g, w) (WSSelectContent (Some (WSCOpen s (WCBUser b)))) [] = WDone (g5, w) r) as [g5 E5].
      { unfold wco_body. change (wsk (@wrun W (S (S n)))) with (wsk_body (@wrun W (S n))). unfold wsk_body. rewrite E3. cbn [wbind].
        destruct r2 as [[ev|]|err].
        - pose proof (@m_co W _ _ (run_sim (S (S n))) g3 h3 w _ _ [ev] Hg3 M_sc_none) as H.
          assert (co (run (S (S n))) h3 (SSelectContent None) [ev] = Done h r) as E' by (by destruct ev).
          rewrite E' in H. apply sim_done in H as (g5 & r5 & E5 & _ & Hr). cbn in Hr. subst r5. exists g5. by destruct ev.
        - cbn in E. injection E as <- <-. by exists g3.
        - cbn in E. injection E as <- <-. by exists g3. }
      exists (S (S (S n))), g5. unfold wtransform, run_builder. cbn [fst snd]. rewrite wbuild_app, E1'. exact E5.
Qed.

Lemma contents_not_called evs q r : (forall e, Gives evs (q ++ [OSubselectContents (fails e)]) (inl r)) ->
  forall (W : Type) (b : once W) w,
     GivesIn evs (fun v => (v, map stateless_op q ++ [WSubselectContents b])) w (inl r) w.
Proof.
  intros Hf. destruct (core_contents _ _ _ _ (Hf (expected_open None))) as [[_ H]|[H _]]; [exact H|].
  by specialize (H _ eq_refl).
Qed.
Lemma contents_called evs q p r : (forall e, Gives evs (q ++ [OSubselectContents (fails e)]) (inr e)) ->
  Gives evs (q ++ [OSubselectContents p]) r ->
  forall (W : Type) (b : once W) w w', b w = (w', map stateless_op p) ->
     GivesIn evs (fun v => (v, map stateless_op q ++ [WSubselectContents b])) w r w'.
Proof.
  intros Hf Hr. destruct (core_contents _ _ _ _ Hr) as [[H _]|[_ H]]; [|exact H]. exfalso.
  destruct r as [r|e].
  - by pose proof (gives_det _ _ _ _ (H (fails (expected_open None))) (Hf (expected_open None))).
  - pose proof (gives_det _ _ _ _ (H (fails (other e))) (Hf (other e))) as [= E]. by apply (other_not e).
Qed.

Section AfterElement.
  Context (e : bool) (evs : list event) (q : pipeline) (x : tree).
  Context (He : Selection e evs) (Ht : typed e q true) (Hv : ValidArgs q) (Hq : Gives evs q (inl (tree_events x))).

  Lemma after_contents p e2 r : typed false p e2 -> ValidArgs p ->
    Gives (tree_events x) [OSubselectContents p] r -> Gives evs (q ++ [OSubselectContents p]) r.
  Proof.
    intros Hp Hvp Hg. eapply (chain_result e q _ true); [done| | |exact Hq|exact Hg].
    - eapply LawProofs2.typed_app; [exact Ht|]. apply typed_one. econstructor. exact Hp.
    - apply valid_args_app; [done|]. apply valid_args_wrap; try done. intros p' ->. done.
  Qed.
  Lemma fails_typed' err : exists e2, typed false (fails err) e2.
  Proof. eexists. apply typed_one. constructor. intros k. eexists. constructor. Qed.

  Lemma contents_state op kids cl p e2 r : ProperTree x -> Inside x op kids cl ->
    typed false p e2 -> ValidArgs p -> Gives (events kids) p r ->
    forall (W : Type) (b : once W) w w', b w = (w', map stateless_op p) ->
    GivesIn evs (fun v => (v, map stateless_op q ++ [WSubselectContents b])) w (around [op] r [cl]) w'.
  Proof.
    intros Hx Hi Hp Hvp Hr. apply contents_called.
    - intros err. destruct (fails_typed' err) as [e3 H3]. eapply after_contents; [exact H3|apply fails_valid|].
      apply (contents_apply x op kids cl Hx Hi _ _ (inr err) H3 (fails_valid _)), fails_fails.
    - eapply after_contents; [exact Hp|done|]. by eapply contents_apply.
  Qed.
  Lemma contents_state_void t a : ProperTree x -> x = Leaf (VoidTag t a) -> forall (W : Type) (b : once W) w,
    GivesIn evs (fun v => (v, map stateless_op q ++ [WSubselectContents b])) w (inl (tree_events x)) w.
  Proof.
    intros Hxp E. apply contents_not_called. intros err. destruct (fails_typed' err) as [e3 H3].
    eapply after_contents; [exact H3|apply fails_valid|]. subst x.
    refine (contents_void _ _ t a true (CO_contents _) _ _ Hxp).
    - apply typed_one. econstructor. exact H3.
    - apply valid_args_wrap; try done. intros p' ->. apply fails_valid.
  Qed.
End AfterElement.
