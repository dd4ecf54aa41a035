(** Proofs for C88. *)
From Coq Require Import List Lia.
From stdpp Require Import gmap.
From Verif Require Import Text Event Input Selector Machine MachineState.
From Verif Require Import SpecTransform SpecState SpecRepeatState SpecNatural.
From Verif Require Import StateProofs2 StateProofs4 RepeatStateProofs ContentStateProofs NaturalStateProofs.
Local Open Scope nat_scope.

Section Attr.
Context {W : Type}.
Implicit Types h : wheap W. Implicit Types s : wstrm W.

Lemma through_attr : Through (W := W) (fun s => WSAttr (Some (WAEmit s))) (WSAttr None).
Proof.
  split.
  - intros n h s h' s' r H. cbn [wrun wne wne_body]. unfold wpassthrough, won_ok. rewrite H. by destruct r as [[]|].
  - intros n h s h' x. cbn [wrun wne wne_body]. unfold wpassthrough, won_ok.
    destruct (wne (wrun n) h s) as [| |h1 [s1 [[]|]]]; try discriminate; intros H; injection H as <- <-; eauto.
Qed.

(** What the first read of the stream of a call gives, from the first read of what is below. *)
Definition attr_first c s (r : option event + stream_error) : wstrm W * (option event + stream_error) :=
  match r with
  | inl (Some (OpeningTag t a)) => (WSAttr (Some (WAEmit s)), inl (Some (OpeningTag t (apply_attr c a))))
  | inl (Some (SelfClosedTag t a)) => (WSAttr None, inl (Some (SelfClosedTag t (apply_attr c a))))
  | inl (Some (VoidTag t a)) => (WSAttr None, inl (Some (VoidTag t (apply_attr c a))))
  | inl other => (WSAttr None, inr (expected_open other))
  | inr e => (WSAttr None, inr e)
  end.
Lemma attr_ne n h s c h1 s1 r : wsk (wrun n) h s = WDone h1 (s1, r) ->
  wne (wrun (S n)) h (WSAttr (Some (WAStart s c))) = WDone h1 (attr_first c s1 r).
Proof. intros H. cbn [wrun wne wne_body]. unfold won_ok. rewrite H. by destruct r as [[[]|]|]. Qed.
Lemma attr_ne_inv n h s c h1 x : wne (wrun (S n)) h (WSAttr (Some (WAStart s c))) = WDone h1 x ->
  exists s1 r, wsk (wrun n) h s = WDone h1 (s1, r) /\ x = attr_first c s1 r.
Proof.
  intros H. destruct (wsk (wrun n) h s) as [| |h2 [s2 r2]] eqn:E.
  1,2: revert H; cbn [wrun wne wne_body]; unfold won_ok; rewrite E; discriminate.
  rewrite (attr_ne _ _ _ c _ _ _ E) in H. injection H as <- <-. eauto.
Qed.
Lemma attr_not_noop c s r : noop (snd (attr_first c s r)) = false.
Proof. by destruct r as [[[]|]|]. Qed.
Lemma attr_sk h s c h1 s1 r : SkTo h s h1 (s1, r) -> SkTo h (WSAttr (Some (WAStart s c))) h1 (attr_first c s1 r).
Proof.
  intros [n H]. pose proof (attr_not_noop c s1 r) as Hn. apply (attr_ne _ _ _ c) in H.
  destruct (attr_first c s1 r) as [s2 r2]. apply sk_event; [by eexists|done].
Qed.
Lemma attr_sk_inv n h s c h1 s1 r : wsk (wrun n) h (WSAttr (Some (WAStart s c))) = WDone h1 (s1, r) ->
  exists s0 r0, SkTo h s h1 (s0, r0) /\ (s1, r) = attr_first c s0 r0.
Proof.
  intros H. destruct n as [|[|n]]; [discriminate|discriminate|]. apply sk_inv in H as (h2 & s2 & r2 & H1 & H2).
  apply attr_ne_inv in H1 as (s0 & r0 & H0 & E). pose proof (attr_not_noop c s0 r0) as Hn. rewrite <- E in Hn.
  cbn in Hn. rewrite Hn in H2. destruct H2 as [-> [= -> ->]]. exists s0, r0. split; [by eexists|done].
Qed.
Lemma attr_dead h acc x r : CoTo h (WSAttr None) acc x r <-> x = h /\ r = inl acc.
Proof.
  assert (CoTo h (WSAttr None) acc h (inl acc)) as H by (apply (ne_none _ _ _ (WSAttr None)); by exists 1).
  split; [intros H'; destruct (co_det _ _ _ _ _ _ _ H H'); by subst|by intros [-> ->]].
Qed.
Lemma co_head h s ev x rest : CoTo h s [] x (inl (ev :: rest)) <->
  exists h1 s1, SkTo h s h1 (s1, inl (Some ev)) /\ CoTo h1 s1 [] x (inl rest).
Proof.
  split.
  - intros ([|n] & H); [discriminate|]. apply co_inv in H as (h1 & s1 & r1 & H1 & H2).
    destruct r1 as [[ev1|]|e]; cbn in H2; [|by destruct H2|by destruct H2].
    assert (CoTo h1 s1 [ev1] x (inl (ev :: rest))) as H3 by (by exists n).
    apply co_from_inv in H3 as ([r0|e] & E & H3); [|discriminate]. injection E as -> ->.
    exists h1, s1. split; [by eexists|done].
  - intros (h1 & s1 & H1 & H2). eapply co_more_event; [exact H1|]. exact (co_from _ _ [ev] _ _ H2).
Qed.

Lemma attr_co h s c x t b rest : CoTo h (WSAttr (Some (WAStart s c))) [] x (inl (OpeningTag t b :: rest)) <->
  exists a, b = apply_attr c a /\ CoTo h s [] x (inl (OpeningTag t a :: rest)).
Proof.
  rewrite co_head. split.
  - intros (h1 & s1 & [n H1] & H2). apply attr_sk_inv in H1 as (s0 & r0 & H0 & E).
    destruct r0 as [[[]|]|]; try discriminate E. injection E as -> -> ->.
    eexists. split; [done|]. apply co_head. exists h1, s0. split; [exact H0|]. by apply (through_co _ _ through_attr).
  - intros (a & -> & H). apply co_head in H as (h1 & s1 & H1 & H2).
    exists h1, (WSAttr (Some (WAEmit s1))). split; [exact (attr_sk _ _ c _ _ _ H1)|]. by apply (through_co _ _ through_attr).
Qed.
Lemma attr_co_leaf h s c ev ev' x rest :
  (forall s1, attr_first c s1 (inl (Some ev)) = (WSAttr None, inl (Some ev'))) ->
  CoTo h s [] x (inl (ev :: rest)) -> exists y, CoTo h (WSAttr (Some (WAStart s c))) [] y (inl [ev']).
Proof.
  intros He H. apply co_head in H as (h1 & s1 & H1 & H2). exists h1. apply co_head. exists h1, (WSAttr None).
  split; [rewrite <- (He s1); by apply attr_sk|]. by apply attr_dead.
Qed.
Lemma attr_co_err_inv h s c x e : CoTo h (WSAttr (Some (WAStart s c))) [] x (inr e) ->
  CoTo h s [] x (inr e) \/ exists o, e = expected_open o.
Proof.
  intros ([|n] & H); [discriminate|]. apply co_inv in H as (h1 & s1 & r1 & H1 & H2).
  apply attr_sk_inv in H1 as (s0 & r0 & H0 & E).
  destruct r0 as [[ev|]|e0].
  2: injection E as -> ->; destruct H2 as [-> [= ->]]; by eauto.
  2: injection E as -> ->; destruct H2 as [-> [= ->]]; left; exact (co_end _ _ [] _ _ _ H0).
  destruct ev; cbn in E; injection E as -> ->; cbn in H2;
    try (apply proj2 in H2; injection H2 as ->; by eauto); left.
  all: try match type of H2 with wco _ _ (WSAttr None) ?a = _ =>
    assert (CoTo h1 (WSAttr None) a x (inr e)) as H3 by (by exists n); apply attr_dead in H3 as [_ H3]; discriminate end.
  assert (CoTo h1 (WSAttr (Some (WAEmit s0))) [OpeningTag tag (apply_attr c attrs)] x (inr e)) as H3 by (by exists n).
  pose proof (proj1 (through_co _ _ through_attr h1 s0 _ _ _) H3) as H4.
  apply co_from_inv in H4 as ([l|e0] & E & H4); [discriminate|]. injection E as <-.
  eapply co_more_event; [exact H0|]. exact (co_from _ _ _ _ _ H4).
Qed.

(** ** The calls *)

Definition attr_stream (o : op) s c : wstrm W :=
  if match o with ORemoveId => true | _ => false end
  then WSAttr (Some (WAStart s c)) else wfallible_new (inl (WSAttr (Some (WAStart s c)))).
Lemma attr_stream_co o h s c acc x r :
  CoTo h (attr_stream o s c) acc x r <-> CoTo h (WSAttr (Some (WAStart s c))) acc x r.
Proof. unfold attr_stream, wfallible_new. destruct o; try done; apply fallible_co. Qed.
Lemma attr_gives o f evs (p : wpipeline W) w : Changes o f -> exists c g s, (forall a, f a = apply_attr c a) /\
  (forall r w', GivesIn evs (calls p) w r w' <-> exists g', CoTo (g, w) s [] (g', w') r) /\
  (forall r w', GivesIn evs (calls (p ++ [stateless_op o])) w r w' <->
    exists g', CoTo (g, w) (WSAttr (Some (WAStart s c))) [] (g', w') r).
Proof.
  intros Hf. destruct (changes_build (U := W) o f Hf) as (c & Hc & Hbuild).
  destruct (built evs p w) as (g & s & Hb). destruct (Hb w) as [E Hg]. exists c, g, s. split; [done|]. split; [done|].
  intros r w'. rewrite (gives_run _ _ (fun s => attr_stream o s c)) by done. split.
  - intros (h & s' & g' & E' & H). rewrite E in E'. injection E' as <- <-. exists g'. by apply (attr_stream_co o).
  - intros (g' & H). exists (g, w), s, g'. split; [done|]. by apply attr_stream_co.
Qed.

Lemma attr_state o f : Changes o f -> forall evs (p : wpipeline W) w t b rest w',
  GivesIn evs (calls (p ++ [stateless_op o])) w (inl (OpeningTag t b :: rest)) w' <->
  exists a, b = f a /\ GivesIn evs (calls p) w (inl (OpeningTag t a :: rest)) w'.
Proof.
  intros Hf evs p w t b rest w'. destruct (attr_gives o f evs p w Hf) as (c & g & s & Hc & Hp & Ho). rewrite Ho. split.
  - intros (g' & H). apply attr_co in H as (a & -> & H). exists a. split; [by rewrite Hc|]. apply Hp. eauto.
  - intros (a & -> & H). apply Hp in H as (g' & H). exists g'. apply attr_co. exists a. by rewrite Hc.
Qed.
Lemma attr_state_leaf o f : Changes o f -> forall evs (p : wpipeline W) w t a rest w',
  (GivesIn evs (calls p) w (inl (VoidTag t a :: rest)) w' ->
   exists w1, GivesIn evs (calls (p ++ [stateless_op o])) w (inl [VoidTag t (f a)]) w1) /\
  (GivesIn evs (calls p) w (inl (SelfClosedTag t a :: rest)) w' ->
   exists w1, GivesIn evs (calls (p ++ [stateless_op o])) w (inl [SelfClosedTag t (f a)]) w1).
Proof.
  intros Hf evs p w t a rest w'. destruct (attr_gives o f evs p w Hf) as (c & g & s & Hc & Hp & Ho).
  split; intros H; apply Hp in H as (g' & H);
    (eapply (attr_co_leaf _ _ c) in H as ([g1 w1] & H); [|intros s1; reflexivity]); exists w1; apply Ho; exists g1; by rewrite Hc.
Qed.
Lemma attr_state_err o f : Changes o f -> forall evs (p : wpipeline W) w e w',
  GivesIn evs (calls (p ++ [stateless_op o])) w (inr e) w' ->
  GivesIn evs (calls p) w (inr e) w' \/ exists x, e = expected_open x.
Proof.
  intros Hf evs p w e w' H. destruct (attr_gives o f evs p w Hf) as (c & g & s & Hc & Hp & Ho).
  destruct (proj1 (Ho _ _) H) as (g' & H0). clear H. rename H0 into H. apply attr_co_err_inv in H as [H|H]; [left; apply Hp; eauto|by right].
Qed.
Lemma attr_state_other o f : Changes o f -> forall evs (p : wpipeline W) w out w',
  GivesIn evs (calls p) w (inl out) w' ->
  (forall t a, head out <> Some (OpeningTag t a) /\ head out <> Some (SelfClosedTag t a) /\ head out <> Some (VoidTag t a)) ->
  exists w1, GivesIn evs (calls (p ++ [stateless_op o])) w (inr (expected_open (head out))) w1.
Proof.
  intros Hf evs p w out w' H Hn. destruct (attr_gives o f evs p w Hf) as (c & g & s & Hc & Hp & Ho).
  apply Hp in H as (g' & H).
  assert (exists h1 s1, SkTo (g, w) s h1 (s1, inl (head out))) as ([g1 w1] & s1 & H1).
  { destruct out as [|ev rest].
    - destruct H as ([|n] & H); [discriminate|]. apply co_inv in H as (h1 & s1 & r1 & H1 & H2).
      destruct r1 as [[ev|]|e]; cbn in H2; [|exists h1, s1; by eexists|by destruct H2].
      assert (CoTo h1 s1 [ev] (g', w') (inl [])) as H3 by (by exists n).
      apply co_from_inv in H3 as ([|] & E & _); discriminate.
    - apply co_head in H as (h1 & s1 & H1 & _). eauto. }
  exists w1. apply Ho. exists g1. apply (attr_sk _ _ c) in H1.
  assert (attr_first c s1 (inl (head out)) = (WSAttr None, inr (expected_open (head out)))) as E.
  { destruct (head out) as [[]|]; try done; by destruct (Hn tag attrs) as (? & ? & ?). }
  rewrite E in H1. exact (co_end _ _ [] _ _ _ H1).
Qed.
Lemma bad_state o err : BadName o err -> forall evs (p : wpipeline W) w r w',
  GivesIn evs (calls (p ++ [stateless_op o])) w r w' <-> r = inr (SEIdentifier err) /\ w' = w.
Proof.
  intros Hb evs p w r w'. rewrite (gives_run _ _ (fun _ => wfallible_new (inr (SEIdentifier err)))) by (by apply bad_build).
  destruct (built evs p w) as (g & s & Hbu). destruct (Hbu w) as [E _].
  assert (forall h, CoTo h (wfallible_new (inr (SEIdentifier err))) [] h (inr (SEIdentifier err))) as Hc.
  { intros h. eapply ne_err. by exists 1. }
  split.
  - intros (h & s' & g' & E' & H). rewrite E in E'. injection E' as <- <-.
    destruct (co_det _ _ _ _ _ _ _ (Hc (g, w)) H) as [[= -> ->] <-]. done.
  - intros [-> ->]. exists (g, w), s, g. split; [done|apply Hc].
Qed.
End Attr.
