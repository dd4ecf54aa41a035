(** Lemmas for C86: closures with state that are called at most once, inside other streams. *)
From Coq Require Import Bool List Lia.
From stdpp Require Import gmap.
From Verif Require Import Text Event Input Parse Selector Machine Template MachineState.
From Verif Require Import SpecTree SpecTransform SpecOps SpecState TreeProofs SelectionProofs OpProofs LawProofs3 ApiProofs ApiProofs2 ReachProofs.
From Verif Require Import FuelProofs StateProofs StateProofs2 StateProofs3 StateProofs4 StateProofs6 SelectStateProofs OnceStateProofs.
Local Open Scope nat_scope.

(** A stream that has a closure it has not called; [P p] is the stream without state when
    the closure makes the calls [p], [Q b] are those with the closure [b]. *)
Inductive fam : (pipeline -> strm) -> (forall W, once W -> wstrm W -> Prop) -> Prop :=
| F_gone s0 : fam (fun _ => s0) (fun W b s => sim s s0)
| F_scan l m direct level :
    fam (fun p => SSelectOnce l (Some (SelOScanning m p direct level)))
        (fun W b s => s = WSSelectOnce l (Some (WSelOScanning m b direct level)))
| F_start P Q : fam P Q ->
    fam (fun p => SFallible (Some (FStart (inl (P p)))))
        (fun W b s => exists s', s = WSFallible (Some (WFStart (inl s'))) /\ Q W b s')
| F_emit P Q : fam P Q ->
    fam (fun p => SFallible (Some (FEmit (P p))))
        (fun W b s => exists s', s = WSFallible (Some (WFEmit s')) /\ Q W b s')
| F_open s0 direct m :
    fam (fun p => SSelectContent (Some (SCOpen s0 (CBSelectOnce direct m p))))
        (fun W b s => exists s', s = WSSelectContent (Some (WSCOpen s' (WCBSelectOnce direct m b))) /\ sim s' s0)
| F_content l tag P Q : fam P Q ->
    fam (fun p => SSelectContent (Some (SCContent l (P p) tag)))
        (fun W b s => exists s', s = WSSelectContent (Some (WSCContent l s' tag)) /\ Q W b s').

(** It has been called and its calls are those of [fails e]. *)
Inductive losing (e : stream_error) : strm -> Prop :=
| L_here : losing e (SFallible (Some (FStart (inr e))))
| L_once l s : losing e s -> losing e (SSelectOnce l (Some (SelOActive s)))
| L_emit s : losing e s -> losing e (SFallible (Some (FEmit s)))
| L_content l s tag : losing e s -> losing e (SSelectContent (Some (SCContent l s tag))).

Lemma losing_ne e n : forall h s h' s' r, losing e s -> ne (run n) h s = Done h' (s', r) -> r = inr e.
Proof.
  induction n as [|n IH]; [discriminate|]. intros h s h' s' r Hl E.
  inversion Hl; subst; cbn [run ne ne_body] in E; unfold passthrough, on_ok in E.
  - by injection E as <- <- <-.
  - destruct (ne (run n) h s0) as [| |h1 [s1 r1]] eqn:En; cbn in E; try discriminate.
    pose proof (IH _ _ _ _ _ H En) as ->. by injection E as <- <- <-.
  - destruct (ne (run n) h s0) as [| |h1 [s1 r1]] eqn:En; cbn in E; try discriminate.
    pose proof (IH _ _ _ _ _ H En) as ->. by injection E as <- <- <-.
  - destruct (ne (run n) h s0) as [| |h1 [s1 r1]] eqn:En; cbn in E; try discriminate.
    pose proof (IH _ _ _ _ _ H En) as ->. by injection E as <- <- <-.
Qed.
Lemma losing_sk n e h s h' s' r : losing e s -> sk (run n) h s = Done h' (s', r) -> r = inr e.
Proof.
  intros Hl E. destruct n as [|n]; [discriminate|]. change (sk_body (run n) h s = Done h' (s', r)) in E. unfold sk_body in E.
  destruct (ne (run n) h s) as [| |h1 [s1 r1]] eqn:En; cbn in E; try discriminate.
  pose proof (losing_ne _ _ _ _ _ _ _ Hl En) as ->. by injection E as <- <- <-.
Qed.

Definition Waits (f0 : heap -> strm -> step_out)
    (f : forall W : Type, wheap W -> wstrm W -> wout W (wstrm W * (option event + stream_error)))
    (P : pipeline -> strm) (Q : forall W, once W -> wstrm W -> Prop) h0 h0' r : Prop :=
  exists P' Q', fam P' Q' /\ (forall p, f0 h0 (P p) = Done h0' (P' p, r)) /\
    forall (W : Type) (b : once W) h w s, sim_heap h h0 -> Q W b s ->
      exists h' s', f W (h, w) s = WDone (h', w) (s', r) /\ sim_heap h' h0' /\ Q' W b s'.
Definition Runs (f : forall W : Type, wheap W -> wstrm W -> wout W (wstrm W * (option event + stream_error)))
    (Q : forall W, once W -> wstrm W -> Prop) p h0 h0' s0' r : Prop :=
  forall (W : Type) (b : once W) h w w' s, sim_heap h h0 -> Q W b s -> b w = (w', map stateless_op p) ->
    exists h' s', f W (h, w) s = WDone (h', w') (s', r) /\ sim_heap h' h0' /\ sim s' s0'.


Lemma fam_ne n : forall P Q, fam P Q -> forall p h0 h0' s0' r, ne (run n) h0 (P p) = Done h0' (s0', r) ->
  Waits (ne (run n)) (fun W => wne (wrun n)) P Q h0 h0' r \/
  (Runs (fun W => wne (wrun n)) Q p h0 h0' s0' r /\
   forall e, p = fails e -> losing e s0' /\ r = inl (Some Noop)).
Proof.
  induction n as [|n IH]; [discriminate|]. intros P Q HP p h0 h0' s0' r E.
  destruct HP as [s0|l m direct level|P Q HP|P Q HP|s0 direct m|l tag P Q HP].
  - left. exists (fun _ => s0'), (fun W b s => sim s s0'). split_and!; [constructor|done|].
    intros W b h w s Hh Hs. pose proof (@m_ne W _ _ (run_sim (S n)) h h0 w _ _ Hh Hs) as H. rewrite E in H.
    apply sim_done in H as (h' & [s' r'] & E' & Hh' & [Hs' Hr]). cbn in Hr, Hs'. subst. eauto.
  - cbn [run ne ne_body] in E. unfold on_ok in E.
    destruct (sk (run n) h0 (SShared l)) as [| |h1 [s1 r1]] eqn:Esk; cbn in E; try discriminate.
    assert (forall W (h : gmap loc (wcell W)) w, sim_heap h h0 -> exists h' s',
      wsk (wrun n) (h, w) (WSShared l) = WDone (h', w) (s', r1) /\ sim_heap h' h1) as Hsk.
    { intros W h w Hh. pose proof (@m_sk W _ _ (run_sim n) h h0 w _ _ Hh (M_shared l)) as H. rewrite Esk in H.
      apply sim_done in H as (h' & [s' r'] & E' & Hh' & [Hs' Hr]). cbn in Hr. subst. eauto. }
    destruct r1 as [[ev|]|e].
    + destruct (include direct level && matches m ev) eqn:Em.
      * destruct (build p h1 (SSingle (Some (SEStart ev (SShared l))))) as [| |h2 s2] eqn:Eb;
          cbn in E; try discriminate. injection E as <- <- <-. right. split.
        -- intros W b h w w' s Hh -> Ew. destruct (Hsk W h w Hh) as (h' & s' & E' & Hh').
           destruct (hands_builder _ _ _ _ _ _ _ (WSSingle (Some (WSEStart ev (WSShared l)))) _ _ Ew Hh'
                  ltac:(repeat constructor) Eb) as (h2' & s2' & E2 & Hh2 & Hs2).
           cbn [wrun wne wne_body]. unfold won_ok. rewrite E'. cbn. rewrite Em. cbn. rewrite E2. cbn.
           do 2 eexists. split_and!; [reflexivity|done|by repeat constructor].
        -- intros e ->. cbn in Eb. injection Eb as <- <-. split; [|done]. repeat constructor.
      * left. destruct (adjust level ev) as [nl|err] eqn:Ea; injection E as <- <- <-.
        -- do 2 eexists. split_and!; [apply (F_scan l m direct nl)|..].
           ++ intros p1. cbn [run ne ne_body]. unfold on_ok. rewrite Esk. cbn. rewrite Em. cbn. by rewrite Ea.
           ++ intros W b h w s Hh ->. destruct (Hsk W h w Hh) as (h' & s' & E' & Hh').
              cbn [wrun wne wne_body]. unfold won_ok. rewrite E'. cbn. rewrite Em. cbn. rewrite Ea. cbn. eauto.
        -- do 2 eexists. split_and!; [apply (F_gone (SSelectOnce l None))|..].
           ++ intros p1. cbn [run ne ne_body]. unfold on_ok. rewrite Esk. cbn. rewrite Em. cbn. by rewrite Ea.
           ++ intros W b h w s Hh ->. destruct (Hsk W h w Hh) as (h' & s' & E' & Hh').
              cbn [wrun wne wne_body]. unfold won_ok. rewrite E'. cbn. rewrite Em. cbn. rewrite Ea. cbn.
              do 2 eexists. split_and!; [done|done|constructor].
    + left. injection E as <- <- <-. do 2 eexists. split_and!; [apply (F_gone (SSelectOnce l None))|..].
      * intros p1. cbn [run ne ne_body]. unfold on_ok. by rewrite Esk.
      * intros W b h w s Hh ->. destruct (Hsk W h w Hh) as (h' & s' & E' & Hh').
        cbn [wrun wne wne_body]. unfold won_ok. rewrite E'. cbn. do 2 eexists. split_and!; [done|done|constructor].
    + left. injection E as <- <- <-. do 2 eexists. split_and!; [apply (F_gone (SSelectOnce l None))|..].
      * intros p1. cbn [run ne ne_body]. unfold on_ok. by rewrite Esk.
      * intros W b h w s Hh ->. destruct (Hsk W h w Hh) as (h' & s' & E' & Hh').
        cbn [wrun wne wne_body]. unfold won_ok. rewrite E'. cbn. do 2 eexists. split_and!; [done|done|constructor].
  - cbn in E. injection E as <- <- <-. left. do 2 eexists. split_and!; [apply (F_emit P Q HP)|done|].
    intros W b h w s Hh (s' & -> & Hs). cbn. do 2 eexists. split_and!; [done|done|eauto].
  - cbn [run ne ne_body] in E. unfold passthrough, on_ok in E.
    destruct (ne (run n) h0 (P p)) as [| |h1 [s1 r1]] eqn:En; cbn in E; try discriminate.
    destruct (IH P Q HP _ _ _ _ _ En) as [(P1 & Q1 & HP1 & H1 & Hst)|[Hr Hf]].
    + left. pose proof (H1 p) as H1p. rewrite En in H1p. injection H1p as ->.
      destruct r1 as [[ev|]|e]; injection E as <- <- <-.
      * do 2 eexists. split_and!; [apply (F_emit P1 Q1 HP1)|..].
        -- intros p1. cbn [run ne ne_body]. unfold passthrough, on_ok. by rewrite H1.
        -- intros W b h w s Hh (s' & -> & Hs). destruct (Hst W b h w s' Hh Hs) as (h' & s'' & E' & Hh' & Hs').
           cbn [wrun wne wne_body]. unfold wpassthrough, won_ok. rewrite E'. cbn. do 2 eexists. split_and!; [done|done|eauto].
      * do 2 eexists. split_and!; [apply (F_gone (SFallible None))|..].
        -- intros p1. cbn [run ne ne_body]. unfold passthrough, on_ok. by rewrite H1.
        -- intros W b h w s Hh (s' & -> & Hs). destruct (Hst W b h w s' Hh Hs) as (h' & s'' & E' & Hh' & Hs').
           cbn [wrun wne wne_body]. unfold wpassthrough, won_ok. rewrite E'. cbn. do 2 eexists. split_and!; [done|done|constructor].
      * do 2 eexists. split_and!; [apply (F_gone (SFallible None))|..].
        -- intros p1. cbn [run ne ne_body]. unfold passthrough, on_ok. by rewrite H1.
        -- intros W b h w s Hh (s' & -> & Hs). destruct (Hst W b h w s' Hh Hs) as (h' & s'' & E' & Hh' & Hs').
           cbn [wrun wne wne_body]. unfold wpassthrough, won_ok. rewrite E'. cbn. do 2 eexists. split_and!; [done|done|constructor].
    + right. split.
      * intros W b h w w' s Hh (s' & -> & Hs) Ew. destruct (Hr W b h w w' s' Hh Hs Ew) as (h' & s'' & E' & Hh' & Hs').
        cbn [wrun wne wne_body]. unfold wpassthrough, won_ok. rewrite E'. cbn.
        destruct r1 as [[ev|]|e]; injection E as <- <- <-; cbn; do 2 eexists; (split_and!; [reflexivity|done|by repeat constructor]).
      * intros e He. destruct (Hf e He) as [Hl ->]. injection E as <- <- <-. split; [by constructor|done].
  - cbn [run ne ne_body] in E. cbv zeta in E. unfold on_ok in E.
    destruct (sk (run n) h0 (SExpand (Some (XStart s0)))) as [| |h3 [s3 r3]] eqn:Esk; cbn [obind] in E; try discriminate.
    assert (forall W (g : gmap loc (wcell W)) s w, sim_heap g h0 -> sim s s0 -> exists h' s',
      wsk (wrun n) (g, w) (WSExpand (Some (WXStart s))) = WDone (h', w) (s', r3) /\ sim_heap h' h3 /\ sim s' s3) as Hsk.
    { intros W g s w Hg Hs. assert (sim (WSExpand (Some (WXStart s))) (SExpand (Some (XStart s0)))) as Hx by by constructor.
      pose proof (@m_sk W _ _ (run_sim n) g h0 w _ _ Hg Hx) as H. rewrite Esk in H.
      apply sim_done in H as (h' & [s' r'] & E' & Hh' & [Hs' Hr]). cbn in Hr, Hs'. subst. eauto. }
    left. destruct r3 as [[ev|]|err]; [destruct ev|..]; cbn in E; injection E as <- <- <-.
    all: try (do 2 eexists; (split_and!; [apply (F_gone (SSelectContent None))|..]);
      [intros p1; cbn [run ne ne_body]; cbv zeta; unfold on_ok; by rewrite Esk|];
      intros W b h w s Hh (s' & -> & Hs); destruct (Hsk W h s' w Hh Hs) as (h' & s'' & E' & Hh' & Hs');
      cbn [wrun wne wne_body]; cbv zeta; unfold won_ok; rewrite E'; cbn; do 2 eexists; (split_and!; [done|done|constructor]); fail).
    do 2 eexists. split_and!; [apply (F_content (fresh_loc h3) tag _ _ (F_scan (fresh_loc (<[fresh_loc h3 := Cell (SPeek s3 None)]> h3)) m direct 0))|..].
    + intros p1. cbn [run ne ne_body]. cbv zeta. unfold on_ok. rewrite Esk. reflexivity.
    + intros W b h w s Hh (s' & -> & Hs). destruct (Hsk W h s' w Hh Hs) as (g & s'' & E' & Hg & Hs').
      assert (sim_heap (<[fresh_loc h3 := WCell (WSPeek s'' None)]> g) (<[fresh_loc h3 := Cell (SPeek s3 None)]> h3)) as Hi.
      { apply simh_insert; [done|by repeat constructor]. }
      cbn [wrun wne wne_body]. cbv zeta. unfold won_ok. rewrite E'. cbn [wbind]. cbn [fst snd].
      rewrite (simh_fresh _ _ Hg). cbn. rewrite (simh_fresh _ _ Hi). do 2 eexists.
      split_and!; [reflexivity|apply simh_insert; [done|by repeat constructor]|eauto].
  - cbn [run ne ne_body] in E. unfold on_ok in E.
    destruct (ne (run n) h0 (P p)) as [| |h1 [s1 r1]] eqn:En; cbn in E; try discriminate.
    destruct (IH P Q HP _ _ _ _ _ En) as [(P1 & Q1 & HP1 & H1 & Hst)|[Hr Hf]].
    + left. pose proof (H1 p) as H1p. rewrite En in H1p. injection H1p as ->.
      destruct r1 as [[ev|]|e]; injection E as <- <- <-.
      * do 2 eexists. split_and!; [apply (F_content l tag P1 Q1 HP1)|..].
        -- intros p1. cbn [run ne ne_body]. unfold on_ok. by rewrite H1.
        -- intros W b h w s Hh (s' & -> & Hs). destruct (Hst W b h w s' Hh Hs) as (h' & s'' & E' & Hh' & Hs').
           cbn [wrun wne wne_body]. unfold won_ok. rewrite E'. cbn. do 2 eexists. split_and!; [done|done|eauto].
      * do 2 eexists. split_and!; [apply (F_gone (SSelectContent (Some (SCClose l tag))))|..].
        -- intros p1. cbn [run ne ne_body]. unfold on_ok. by rewrite H1.
        -- intros W b h w s Hh (s' & -> & Hs). destruct (Hst W b h w s' Hh Hs) as (h' & s'' & E' & Hh' & Hs').
           cbn [wrun wne wne_body]. unfold won_ok. rewrite E'. cbn. do 2 eexists. split_and!; [done|done|constructor].
      * do 2 eexists. split_and!; [apply (F_gone (SSelectContent None))|..].
        -- intros p1. cbn [run ne ne_body]. unfold on_ok. by rewrite H1.
        -- intros W b h w s Hh (s' & -> & Hs). destruct (Hst W b h w s' Hh Hs) as (h' & s'' & E' & Hh' & Hs').
           cbn [wrun wne wne_body]. unfold won_ok. rewrite E'. cbn. do 2 eexists. split_and!; [done|done|constructor].
    + right. split.
      * intros W b h w w' s Hh (s' & -> & Hs) Ew. destruct (Hr W b h w w' s' Hh Hs Ew) as (h' & s'' & E' & Hh' & Hs').
        cbn [wrun wne wne_body]. unfold won_ok. rewrite E'. cbn.
        destruct r1 as [[ev|]|e]; injection E as <- <- <-; cbn; do 2 eexists; (split_and!; [reflexivity|done|by repeat constructor]).
      * intros e He. destruct (Hf e He) as [Hl ->]. injection E as <- <- <-. split; [by constructor|done].
Qed.

Lemma fam_sk n p : forall P Q h0 h0' s0' r, fam P Q -> sk (run n) h0 (P p) = Done h0' (s0', r) ->
  Waits (sk (run n)) (fun W => wsk (wrun n)) P Q h0 h0' r \/
  (Runs (fun W => wsk (wrun n)) Q p h0 h0' s0' r /\ forall e, p = fails e -> r = inr e).
Proof.
  induction n as [|n IH]; [discriminate|]. intros P Q h0 h0' s0' r HP E.
  change (sk_body (run n) h0 (P p) = Done h0' (s0', r)) in E. unfold sk_body in E.
  destruct (ne (run n) h0 (P p)) as [| |h1 [s1 r1]] eqn:En; cbn in E; try discriminate.
  destruct (match r1 with inl (Some Noop) => true | _ => false end) eqn:Er.
  - assert (r1 = inl (Some Noop)) as -> by (destruct r1 as [[[]|]|]; done).
    destruct (fam_ne _ _ _ HP _ _ _ _ _ En) as [(P1 & Q1 & HP1 & H1 & Hst1)|[Hc Hf]].
    + assert (s1 = P1 p) as ->. { pose proof (H1 p) as H. rewrite En in H. by injection H. }
      destruct (IH _ _ _ _ _ _ HP1 E) as [(P2 & Q2 & HP2 & H2 & Hst2)|[Hc Hf]].
      * left. exists P2, Q2. split_and!; [done|..].
        -- intros p1. cbn [run sk]. unfold sk_body. rewrite H1. cbn. apply H2.
        -- intros W b h w s Hh Hs. destruct (Hst1 W b h w s Hh Hs) as (h' & s' & E1 & Hh' & Hs').
           destruct (Hst2 W b h' w s' Hh' Hs') as (h'' & s'' & E2 & Hh'' & Hs''). exists h'', s''. split; [|done].
           cbn [wrun wsk]. unfold wsk_body. rewrite E1. cbn. exact E2.
      * right. split; [|done]. intros W b h w w' s Hh Hs Eb. destruct (Hst1 W b h w s Hh Hs) as (h' & s' & E1 & Hh' & Hs').
        destruct (Hc W b h' w w' s' Hh' Hs' Eb) as (h'' & s'' & E2 & Hh'' & Hs''). exists h'', s''. split; [|done].
        cbn [wrun wsk]. unfold wsk_body. rewrite E1. cbn. exact E2.
    + right. split.
      * intros W b h w w' s Hh Hs Eb. destruct (Hc W b h w w' s Hh Hs Eb) as (h' & s' & E1 & Hh' & Hs').
        pose proof (@m_sk W _ _ (run_sim n) h' h1 w' _ _ Hh' Hs') as H. rewrite E in H.
        apply sim_done in H as (h'' & [s'' r''] & E2 & Hh'' & [Hs'' Hr]). cbn in Hr, Hs''. subst r''.
        exists h'', s''. split; [|done]. cbn [wrun wsk]. unfold wsk_body. rewrite E1. cbn. exact E2.
      * intros e He. destruct (Hf e He) as [Hl _]. by eapply losing_sk.
  - assert (Done h1 (s1, r1) = Done h0' (s0', r)) as [= -> -> ->] by (destruct r1 as [[[]|]|]; done).
    destruct (fam_ne _ _ _ HP _ _ _ _ _ En) as [(P1 & Q1 & HP1 & H1 & Hst1)|[Hc Hf]].
    + left. exists P1, Q1. split_and!; [done|..].
      * intros p1. cbn [run sk]. unfold sk_body. rewrite H1. cbn. by destruct r as [[[]|]|].
      * intros W b h w s Hh Hs. destruct (Hst1 W b h w s Hh Hs) as (h' & s' & E1 & Hh' & Hs'). exists h', s'. split; [|done].
        cbn [wrun wsk]. unfold wsk_body. rewrite E1. cbn. by destruct r as [[[]|]|].
    + right. split.
      * intros W b h w w' s Hh Hs Eb. destruct (Hc W b h w w' s Hh Hs Eb) as (h' & s' & E1 & Hh' & Hs').
        exists h', s'. split; [|done]. cbn [wrun wsk]. unfold wsk_body. rewrite E1. cbn. by destruct r as [[[]|]|].
      * intros e He. by destruct (Hf e He) as [_ ->].
Qed.

Lemma fam_co n p : forall P Q h0 acc h0' r, fam P Q -> co (run n) h0 (P p) acc = Done h0' r ->
  ((forall p1, co (run n) h0 (P p1) acc = Done h0' r) /\
   forall (W : Type) (b : once W) h w s, sim_heap h h0 -> Q W b s -> exists h', wco (wrun n) (h, w) s acc = WDone (h', w) r) \/
  ((forall (W : Type) (b : once W) h w w' s, sim_heap h h0 -> Q W b s -> b w = (w', map stateless_op p) ->
      exists h', wco (wrun n) (h, w) s acc = WDone (h', w') r) /\
   forall e, p = fails e -> r = inr e).
Proof.
  induction n as [|n IH]; intros P Q h0 acc h0' r HP E; [discriminate|].
  change (co_body (run n) h0 (P p) acc = Done h0' r) in E. unfold co_body in E.
  destruct (sk (run n) h0 (P p)) as [| |h1 [s1 r1]] eqn:En; cbn in E; try discriminate.
  destruct (fam_sk _ _ _ _ _ _ _ _ HP En) as [(P1 & Q1 & HP1 & H1 & Hst1)|[Hc Hf]].
  - assert (s1 = P1 p) as ->. { pose proof (H1 p) as H. rewrite En in H. by injection H. }
    destruct r1 as [[ev|]|e1].
    + destruct (IH _ _ _ _ _ _ HP1 E) as [[Hp2 Hst2]|[Hc Hf]].
      * left. split.
        -- intros p1. cbn [run co]. unfold co_body. rewrite H1. cbn. apply Hp2.
        -- intros W b h w s Hh Hs. destruct (Hst1 W b h w s Hh Hs) as (h' & s' & E1 & Hh' & Hs').
           destruct (Hst2 W b h' w s' Hh' Hs') as (h'' & E2). exists h''.
           cbn [wrun wco]. unfold wco_body. rewrite E1. cbn. exact E2.
      * right. split; [|done]. intros W b h w w' s Hh Hs Eb. destruct (Hst1 W b h w s Hh Hs) as (h' & s' & E1 & Hh' & Hs').
        destruct (Hc W b h' w w' s' Hh' Hs' Eb) as (h'' & E2). exists h''.
        cbn [wrun wco]. unfold wco_body. rewrite E1. cbn. exact E2.
    + injection E as <- <-. left. split.
      * intros p1. cbn [run co]. unfold co_body. by rewrite H1.
      * intros W b h w s Hh Hs. destruct (Hst1 W b h w s Hh Hs) as (h' & s' & E1 & Hh' & Hs'). exists h'.
        cbn [wrun wco]. unfold wco_body. by rewrite E1.
    + injection E as <- <-. left. split.
      * intros p1. cbn [run co]. unfold co_body. by rewrite H1.
      * intros W b h w s Hh Hs. destruct (Hst1 W b h w s Hh Hs) as (h' & s' & E1 & Hh' & Hs'). exists h'.
        cbn [wrun wco]. unfold wco_body. by rewrite E1.
  - right. split.
    + intros W b h w w' s Hh Hs Eb. destruct (Hc W b h w w' s Hh Hs Eb) as (h' & s' & E1 & Hh' & Hs').
      destruct r1 as [[ev|]|e1].
      * pose proof (@m_co W _ _ (run_sim n) h' h1 w' _ _ (acc ++ [ev]) Hh' Hs') as H.
        rewrite E in H.
        apply sim_done in H as (h'' & r'' & E2 & Hh'' & Hr). cbn in Hr. subst r''.
        exists h''. cbn [wrun wco]. unfold wco_body. rewrite E1. cbn. exact E2.
      * injection E as <- <-. exists h'. cbn [wrun wco]. unfold wco_body. by rewrite E1.
      * injection E as <- <-. exists h'. cbn [wrun wco]. unfold wco_body. by rewrite E1.
    + intros e He. specialize (Hf e He). subst r1. by injection E as <- <-.
Qed.

(** ** [subselect_once] *)

Lemma core_sub evs q direct m p r : Gives evs (q ++ [OSubselectOnce direct (inl m) p]) r ->
  ((forall p1, Gives evs (q ++ [OSubselectOnce direct (inl m) p1]) r) /\
   forall (W : Type) (b : once W) w,
     GivesIn evs (fun v => (v, map stateless_op q ++ [WSubselectOnce direct (inl m) b])) w r w) \/
  ((forall e, p = fails e -> r = inr e) /\
   forall (W : Type) (b : once W) w w', b w = (w', map stateless_op p) ->
     GivesIn evs (fun v => (v, map stateless_op q ++ [WSubselectOnce direct (inl m) b])) w r w').
Proof.
  intros (n & h & E). unfold transform in E. rewrite build_app in E.
  destruct (build q ∅ (STemplate evs 0)) as [| |h1 s1] eqn:E1; cbn in E; try discriminate.
  assert (forall W (w : W), exists h1' s1', wbuild (map stateless_op q) (∅, w) (WSTemplate evs 0) = WDone (h1', w) s1' /\
    sim_heap h1' h1 /\ sim s1' s1) as Hb.
  { intros W w. assert (sim_heap (∅ : gmap loc (wcell W)) ∅) as Hemp by (intros l; rewrite !lookup_empty; constructor).
    pose proof (sim_build q ∅ ∅ w (WSTemplate evs 0) _ Hemp (M_template evs 0)) as H1. rewrite E1 in H1.
    apply sim_done in H1 as (h1' & s1' & E1' & Hh1 & Hs1). eauto. }
  pose proof (F_start _ _ (F_open s1 direct m)) as HP.
  destruct (fam_co n p _ _ h1 [] h r HP E) as [[Hp Hst]|[Hst Hf]]; [left|right]; split.
  - intros p1. exists n, h. unfold transform. rewrite build_app, E1. cbn. apply Hp.
  - intros W b w. destruct (Hb W w) as (h1' & s1' & E1' & Hh1 & Hs1).
    destruct (Hst W b h1' w _ Hh1 ltac:(eexists; split; [reflexivity|]; eexists; split; [reflexivity|exact Hs1])) as [h' E'].
    exists n, h'. unfold wtransform, run_builder. cbn [fst snd]. rewrite wbuild_app, E1'. exact E'.
  - exact Hf.
  - intros W b w w' Eb. destruct (Hb W w) as (h1' & s1' & E1' & Hh1 & Hs1).
    destruct (Hst W b h1' w w' _ Hh1 ltac:(eexists; split; [reflexivity|]; eexists; split; [reflexivity|exact Hs1]) Eb) as [h' E'].
    exists n, h'. unfold wtransform, run_builder. cbn [fst snd]. rewrite wbuild_app, E1'. exact E'.
Qed.

Lemma sub_not_called evs q direct m r : (forall e, Gives evs (q ++ [OSubselectOnce direct (inl m) (fails e)]) (inl r)) ->
  forall (W : Type) (b : once W) w,
     GivesIn evs (fun v => (v, map stateless_op q ++ [WSubselectOnce direct (inl m) b])) w (inl r) w.
Proof.
  intros Hf. destruct (core_sub _ _ _ _ _ _ (Hf (expected_open None))) as [[_ H]|[H _]]; [exact H|].
  by specialize (H _ eq_refl).
Qed.
Lemma sub_called evs q direct m p r : (forall e, Gives evs (q ++ [OSubselectOnce direct (inl m) (fails e)]) (inr e)) ->
  Gives evs (q ++ [OSubselectOnce direct (inl m) p]) r ->
  forall (W : Type) (b : once W) w w', b w = (w', map stateless_op p) ->
     GivesIn evs (fun v => (v, map stateless_op q ++ [WSubselectOnce direct (inl m) b])) w r w'.
Proof.
  intros Hf Hr. destruct (core_sub _ _ _ _ _ _ Hr) as [[H _]|[_ H]]; [|exact H]. exfalso.
  destruct r as [r|e].
  - by pose proof (gives_det _ _ _ _ (H (fails (expected_open None))) (Hf (expected_open None))).
  - pose proof (gives_det _ _ _ _ (H (fails (other e))) (Hf (other e))) as [= E]. by apply (other_not e).
Qed.

Section AfterElement.
  Context (e : bool) (evs : list event) (q : pipeline) (x : tree).
  Context (He : Selection e evs) (Ht : typed e q true) (Hv : ValidArgs q) (Hq : Gives evs q (inl (tree_events x))).

  Lemma sub_valid direct m p : ValidArgs p -> ValidArgs [OSubselectOnce direct (inl m) p].
  Proof. intros H. apply valid_args_wrap; try done. intros p' ->. done. Qed.
  Lemma after_sub direct m p e2 r : typed true p e2 -> ValidArgs p ->
    Gives (tree_events x) [OSubselectOnce direct (inl m) p] r -> Gives evs (q ++ [OSubselectOnce direct (inl m) p]) r.
  Proof.
    intros Hp Hvp Hg. eapply (chain_result e q _ true); [done| | |exact Hq|exact Hg].
    - eapply LawProofs2.typed_app; [exact Ht|]. apply typed_one. econstructor. exact Hp.
    - apply valid_args_app; [done|]. by apply sub_valid.
  Qed.

  Context (op : event) (kids : list tree) (cl : event) (Hx : ProperTree x) (Hi : Inside x op kids cl).

  Lemma after_inside direct m p e2 r : typed true p e2 -> ValidArgs p ->
    Gives (events kids) [OSelectOnce direct (inl m) p] r -> Gives evs (q ++ [OSubselectOnce direct (inl m) p]) (around [op] r [cl]).
  Proof.
    intros Hp Hvp Hg. eapply after_sub; [exact Hp|done|].
    eapply (contents_select_once x op kids cl Hx Hi); [exact Hp|by apply sub_valid|exact Hg].
  Qed.
  Lemma inside_proper : Proper kids.
  Proof. inversion Hi; subst; [by inversion Hx; subst|intros y []]. Qed.

  Lemma sub_state m pre y post p e2 r : events kids = pre ++ tree_events y ++ post ->
    ProperTree y -> IsElement y -> (forall ev, In ev pre -> matches m ev = false) -> matches m (start y) = true ->
    typed true p e2 -> ValidArgs p -> Gives (tree_events y) p r ->
    forall (W : Type) (b : once W) w w', b w = (w', map stateless_op p) ->
    GivesIn evs (fun v => (v, map stateless_op q ++ [WSubselectOnce false (inl m) b])) w
      (around [op] (around pre r post) [cl]) w'.
  Proof.
    intros E1 Hy Hel Hpre Hm Hp Hvp Hr. apply sub_called.
    - intros err. destruct (fails_typed err) as [e3 H3].
      apply (after_inside false m (fails err) e3 (inr err) H3 (fails_valid _)).
      apply (once_result m _ pre y post (fails err) e3 (inr err)); try done;
        [apply well_nested_events, inside_proper|apply valid_args_select_once, fails_valid|apply fails_fails].
    - eapply after_inside; [exact Hp|done|]. eapply once_result; try done;
        [apply well_nested_events, inside_proper|by apply valid_args_select_once].
  Qed.
  Lemma sub_direct_state m F1 y F2 p e2 r : kids = F1 ++ y :: F2 -> IsElement y ->
    (forall z, In z F1 -> matches m (start z) = false) -> matches m (start y) = true ->
    typed true p e2 -> ValidArgs p -> Gives (tree_events y) p r ->
    forall (W : Type) (b : once W) w w', b w = (w', map stateless_op p) ->
    GivesIn evs (fun v => (v, map stateless_op q ++ [WSubselectOnce true (inl m) b])) w
      (around [op] (around (events F1) r (events F2)) [cl]) w'.
  Proof.
    intros E1 Hel Hpre Hm Hp Hvp Hr. pose proof inside_proper as HF. apply sub_called.
    - intros err. destruct (fails_typed err) as [e3 H3].
      apply (after_inside true m (fails err) e3 (inr err) H3 (fails_valid _)). rewrite E1 in HF |- *.
      apply (once_direct_result m F1 y F2 (fails err) e3 (inr err)); try done;
        [apply valid_args_select_once, fails_valid|apply fails_fails].
    - eapply after_inside; [exact Hp|done|]. rewrite E1 in HF |- *. eapply once_direct_result; try done.
      by apply valid_args_select_once.
  Qed.
  Lemma sub_state_none m : (forall ev, In ev (events kids) -> matches m ev = false) ->
    forall direct (W : Type) (b : once W) w,
    GivesIn evs (fun v => (v, map stateless_op q ++ [WSubselectOnce direct (inl m) b])) w (inl (op :: events kids ++ [cl])) w.
  Proof.
    intros Hno direct. apply sub_not_called. intros err. destruct (fails_typed err) as [e3 H3].
    apply (after_inside direct m (fails err) e3 (inl (events kids)) H3 (fails_valid _)).
    eapply once_no_match; [apply well_nested_events, inside_proper|exact H3|apply valid_args_select_once, fails_valid|done].
  Qed.
  Lemma sub_direct_state_none m : (forall y, In y kids -> matches m (start y) = false) ->
    forall (W : Type) (b : once W) w,
    GivesIn evs (fun v => (v, map stateless_op q ++ [WSubselectOnce true (inl m) b])) w (inl (op :: events kids ++ [cl])) w.
  Proof.
    intros Hno. apply sub_not_called. intros err. destruct (fails_typed err) as [e3 H3].
    apply (after_inside true m (fails err) e3 (inl (events kids)) H3 (fails_valid _)).
    eapply once_direct_no_match; [apply inside_proper|exact H3|apply valid_args_select_once, fails_valid|done].
  Qed.
End AfterElement.

Lemma sub_state_void e evs q t a direct m : Selection e evs -> typed e q true -> ValidArgs q ->
  Gives evs q (inl [VoidTag t a]) -> ProperTree (Leaf (VoidTag t a)) -> forall (W : Type) (b : once W) w,
  GivesIn evs (fun v => (v, map stateless_op q ++ [WSubselectOnce direct (inl m) b])) w (inl [VoidTag t a]) w.
Proof.
  intros He Ht Hv Hq Hx. apply sub_not_called. intros err. destruct (fails_typed err) as [e3 H3].
  apply (after_sub e evs q (Leaf (VoidTag t a)) He Ht Hv Hq direct m (fails err) e3 _ H3 (fails_valid _)).
  refine (contents_void _ _ t a true (CO_select_once _ _ _) _ _ Hx).
  - apply typed_one. econstructor. exact H3.
  - apply sub_valid, fails_valid.
Qed.
