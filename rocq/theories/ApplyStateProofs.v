(** Proofs for C89. *)
From Coq Require Import List Lia.
From stdpp Require Import gmap.
From Verif Require Import Text Event Input Selector Machine MachineState.
From Verif Require Import SpecTransform SpecState SpecRepeatState SpecApplyState.
From Verif Require Import StateProofs2 StateProofs4 RepeatStateProofs ContentStateProofs.
Local Open Scope nat_scope.

Section Apply.
Context {W : Type}.
Implicit Types h : wheap W. Implicit Types s : wstrm W.

(** ** Selectors that cannot be used *)

Lemma bad_selector_state o err : BadSelector o err -> forall evs (p : wpipeline W) w r w',
  GivesIn evs (calls (p ++ [o])) w r w' <-> r = inr err /\ w' = w.
Proof.
  intros Hb evs p w r w'.
  rewrite (gives_run _ _ (fun _ => wfallible_new (inr err))) by (by destruct Hb).
  destruct (built evs p w) as (g & s & Hbu). destruct (Hbu w) as [E _].
  assert (forall h, CoTo h (wfallible_new (inr err)) [] h (inr err)) as Hc.
  { intros h. eapply ne_err. by exists 1. }
  split.
  - intros (h & s' & g' & E' & H). rewrite E in E'. injection E' as <- <-.
    destruct (co_det _ _ _ _ _ _ _ (Hc (g, w)) H) as [[= -> ->] <-]. done.
  - intros [-> ->]. exists (g, w), s, g. split; [done|apply Hc].
Qed.

(** ** [apply] *)

Lemma fix_build (p : wpipeline W) : forall h s, wbuild_fix p h s = wbuild p h s.
Proof.
  induction p as [|o p IH]; intros h s; [done|]. cbn. destruct (wbuild_op o h s); cbn; [done..|]. apply IH.
Qed.
Lemma build_app (p q : wpipeline W) : forall h s, wbuild (p ++ q) h s = wbind (wbuild p h s) (fun h s => wbuild q h s).
Proof. induction p as [|a p IH]; intros h s; cbn; [done|]. destruct (wbuild_op a h s); cbn; auto. Qed.
Lemma build_apply (p0 : wpipeline W) h s : wbuild_op (WApply p0) h s = wbuild p0 h s.
Proof. exact (fix_build p0 h s). Qed.
Lemma same_build evs (p q : wpipeline W) : (forall h s, wbuild p h s = wbuild q h s) ->
  forall w r w', GivesIn evs (calls p) w r w' <-> GivesIn evs (calls q) w r w'.
Proof. intros H w r w'. unfold GivesIn, wtransform, run_builder, calls. cbn [fst snd]. by rewrite H. Qed.
Lemma apply_state evs (p p0 q : wpipeline W) w r w' :
  GivesIn evs (calls (p ++ WApply p0 :: q)) w r w' <-> GivesIn evs (calls (p ++ p0 ++ q)) w r w'.
Proof.
  apply same_build. intros h s. rewrite !build_app. destruct (wbuild p h s) as [| |h1 s1]; [done..|]. cbn [wbind].
  rewrite build_app. change (wbuild (WApply p0 :: q) h1 s1) with (wbind (wbuild_op (WApply p0) h1 s1) (fun h s => wbuild q h s)).
  by rewrite build_apply.
Qed.

(** ** The variants of [apply] with a condition *)

Lemma either_ne b n h s h' s' r : wne (wrun n) h s = WDone h' (s', r) ->
  wne (wrun (S n)) h (WSApplyEither b s) = WDone h' (WSApplyEither b s', r).
Proof. intros H. cbn [wrun wne wne_body]. by rewrite H. Qed.
Lemma either_ne_inv b n h s h' x : wne (wrun (S n)) h (WSApplyEither b s) = WDone h' x ->
  exists s' r, wne (wrun n) h s = WDone h' (s', r) /\ x = (WSApplyEither b s', r).
Proof.
  cbn [wrun wne wne_body]. destruct (wne (wrun n) h s) as [| |h1 [s1 r1]]; try discriminate. intros [= <- <-]. eauto.
Qed.
Lemma either_sk b n : forall h s h' s' r, wsk (wrun n) h s = WDone h' (s', r) ->
  SkTo h (WSApplyEither b s) h' (WSApplyEither b s', r).
Proof.
  induction n as [|n IH]; intros h s h' s' r H; [discriminate|].
  apply sk_inv in H as (h1 & s1 & r1 & H1 & H2). apply (either_ne b) in H1.
  destruct (noop r1) eqn:Er.
  - assert (r1 = inl (Some Noop)) as -> by (destruct r1 as [[[]|]|]; done).
    eapply sk_noop; [eexists; exact H1|]. by apply IH.
  - destruct H2 as [-> [= -> ->]]. apply sk_event; [eexists; exact H1|done].
Qed.
Lemma either_sk_inv b n : forall h s h' x r, wsk (wrun n) h (WSApplyEither b s) = WDone h' (x, r) ->
  exists s', SkTo h s h' (s', r) /\ x = WSApplyEither b s'.
Proof.
  induction n as [|n IH]; intros h s h' x r H; [discriminate|].
  apply sk_inv in H as (h1 & s1 & r1 & H1 & H2). destruct n as [|n]; [discriminate|].
  apply either_ne_inv in H1 as (s2 & r2 & H1 & [= -> ->]). destruct (noop r2) eqn:Er.
  - assert (r2 = inl (Some Noop)) as -> by (destruct r2 as [[[]|]|]; done).
    destruct (IH _ _ _ _ _ H2) as (s' & H3 & ->). exists s'. split; [|done]. eapply sk_noop; [eexists; exact H1|done].
  - destruct H2 as [-> [= -> ->]]. exists s2. split; [|done]. apply sk_event; [eexists; exact H1|done].
Qed.
Lemma either_co b h s acc x res : CoTo h (WSApplyEither b s) acc x res <-> CoTo h s acc x res.
Proof.
  split; intros [n H]; revert h s acc H; induction n as [|n IH]; intros h s acc H; try discriminate;
    apply co_inv in H as (h1 & s1 & r1 & H1 & H2).
  - apply either_sk_inv in H1 as (s2 & H3 & ->). destruct r1 as [[ev|]|e]; cbn in H2.
    + destruct (IH _ _ _ H2) as [m Hm]. by eapply co_intro.
    + by apply (co_intro 0 _ _ _ _ _ _ _ _ H3).
    + by apply (co_intro 0 _ _ _ _ _ _ _ _ H3).
  - apply (either_sk b) in H1 as H3. destruct r1 as [[ev|]|e]; cbn in H2.
    + destruct (IH _ _ _ H2) as [m Hm]. by eapply co_intro.
    + by apply (co_intro 0 _ _ _ _ _ _ _ _ H3).
    + by apply (co_intro 0 _ _ _ _ _ _ _ _ H3).
Qed.
Lemma either_state evs (p p0 : wpipeline W) b el w r w' :
  GivesIn evs (calls (p ++ [WApplyEither b p0 el])) w r w' <-> GivesIn evs (calls (p ++ p0)) w r w'.
Proof.
  destruct (built evs (p ++ p0) w) as (g & s & Hb). destruct (Hb w) as [E Hg]. rewrite Hg.
  rewrite gives_run_plain.
  assert (wbuild (p ++ [WApplyEither b p0 el]) (∅, w) (WSTemplate evs 0) = WDone (g, w) (WSApplyEither b s)) as ->.
  { rewrite build_app in E |- *. destruct (wbuild p (∅, w) (WSTemplate evs 0)) as [| |h1 s1]; try discriminate.
    cbn [wbind] in E |- *. change (wbind (wbind (wbuild_fix p0 h1 s1) (fun h s => WDone h (WSApplyEither b s)))
      (fun h s => wbuild [] h s) = WDone (g, w) (WSApplyEither b s)). by rewrite fix_build, E. }
  split.
  - intros (h & s' & g' & [= <- <-] & H). exists g'. exact (proj1 (either_co _ _ _ _ _ _) H).
  - intros (g' & H). exists (g, w), (WSApplyEither b s), g'. split; [done|]. by apply either_co.
Qed.
End Apply.
