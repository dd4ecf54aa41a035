(** Proofs for C84. *)
From Coq Require Import List Lia.
From stdpp Require Import gmap.
From Verif Require Import Text Event Input Selector Machine MachineState.
From Verif Require Import SpecTransform SpecState SpecRepeatState SpecContentState.
From Verif Require Import StateProofs2 StateProofs4 RepeatStateProofs.
Local Open Scope nat_scope.

Section Content.
Context {W : Type}.
Implicit Types h : wheap W. Implicit Types s : wstrm W.

Lemma sk_no_noop n : forall h s h' s' r, wsk (wrun n) h s = WDone h' (s', r) -> noop r = false.
Proof.
  induction n as [|n IH]; intros h s h' s' r H; [discriminate|].
  apply sk_inv in H as (h1 & s1 & r1 & _ & H). destruct (noop r1) eqn:Er; [by eapply IH|].
  by destruct H as [-> [= -> ->]].
Qed.

Lemma co_end h s acc h1 s1 r1 : SkTo h s h1 (s1, r1) ->
  match r1 with inl (Some _) => True | inl None => CoTo h s acc h1 (inl acc) | inr e => CoTo h s acc h1 (inr e) end.
Proof. intros H. destruct r1 as [[]|]; [done| |]; by apply (co_intro 0 _ _ _ _ _ _ _ _ H). Qed.
Lemma co_more_event h s acc h1 s1 ev x r : SkTo h s h1 (s1, inl (Some ev)) ->
  CoTo h1 s1 (acc ++ [ev]) x r -> CoTo h s acc x r.
Proof. intros H [n Hc]. by apply (co_intro n _ _ _ _ _ _ _ _ H). Qed.

(** ** Building does not fail *)

Lemma build_op_done : forall (o : wop W) h s, exists h' s', wbuild_op o h s = WDone h' s'.
Proof.
  fix IH 1. intros o h s.
  assert (forall (p : wpipeline W) h s, exists h' s', wbuild_fix p h s = WDone h' s') as IHp.
  { fix IHp 1. intros [|a p] k t; cbn; [eauto|]. destruct (IH a k t) as (k' & t' & ->). apply IHp. }
  destruct o; cbn [wbuild_op]; fold (@wbuild_fix W); try (by eauto).
  all: try (apply IHp). all: try (destruct (IHp p h s) as (h' & s' & ->); by eauto).
  all: try (destruct sel; by eauto).
  all: unfold wattr_new; destruct name; try (by eauto).
  all: repeat match goal with |- context [static_ident ?x] => let y := eval vm_compute in (static_ident x) in change (static_ident x) with y end; cbn; eauto.
Qed.
Lemma build_done (p : wpipeline W) : forall h s, exists h' s', wbuild p h s = WDone h' s'.
Proof.
  induction p as [|o p IH]; intros h s; cbn; [eauto|]. destruct (build_op_done o h s) as (h' & s' & ->). apply IH.
Qed.
(** The stream that [p] builds, which can be read in any state. *)
Lemma built evs (p : wpipeline W) (w0 : W) : exists g s, forall w,
  wbuild p (∅, w) (WSTemplate evs 0) = WDone (g, w) s /\
  forall r w', GivesIn evs (calls p) w r w' <-> exists g', CoTo (g, w) s [] (g', w') r.
Proof.
  destruct (build_done p (∅, w0) (WSTemplate evs 0)) as (h & s & E).
  exists (fst h), s. intros w.
  assert (wbuild p (∅, w) (WSTemplate evs 0) = WDone (fst h, w) s) as E'.
  { pose proof (build_world p (∅, w0) (WSTemplate evs 0) w) as H. cbn [fst] in H. by rewrite E in H. }
  split; [done|]. intros r w'. rewrite gives_run_plain, E'. split.
  - intros (h1 & s1 & g' & [= <- <-] & H). eauto.
  - intros (g' & H). eauto.
Qed.

(** ** One stream and then another *)

Lemma first_ne h s1 s2 h1 s1' r : SkTo h s1 h1 (s1', r) ->
  NeTo h (WSCombine (Some (WCmbFirst s1 s2))) h1
    match r with
    | inl (Some ev) => (WSCombine (Some (WCmbFirst s1' s2)), inl (Some ev))
    | inl None => (WSCombine (Some (WCmbSecond s2)), inl (Some Noop))
    | inr e => (WSCombine None, inr e)
    end.
Proof. intros [n H]. exists (S n). cbn. rewrite H. by destruct r as [[]|]. Qed.
Lemma first_run s2 n : forall h s1 acc h1 r1, wco (wrun n) h s1 acc = WDone h1 r1 ->
  match r1 with
  | inl l => forall x r, CoTo h1 (WSCombine (Some (WCmbSecond s2))) l x r ->
      CoTo h (WSCombine (Some (WCmbFirst s1 s2))) acc x r
  | inr e => CoTo h (WSCombine (Some (WCmbFirst s1 s2))) acc h1 (inr e)
  end.
Proof.
  induction n as [|n IH]; intros h s1 acc h1 r1 H; [discriminate|].
  apply co_inv in H as (h2 & s' & r2 & H1 & H2). pose proof (sk_no_noop _ _ _ _ _ _ H1) as Hn.
  pose proof (first_ne _ _ s2 _ _ _ (ex_intro _ _ H1)) as H3. destruct r2 as [[ev|]|e]; cbn in H2.
  - apply sk_event in H3; [|done]. specialize (IH _ _ _ _ _ H2). destruct r1 as [l|e].
    + intros x r Hx. eapply co_more_event; [exact H3|]. by apply IH.
    + by eapply co_more_event.
  - destruct H2 as [-> ->]. intros x r Hx. by eapply co_noop.
  - destruct H2 as [-> ->]. apply sk_event in H3; [|done]. exact (co_end _ _ acc _ _ _ H3).
Qed.
Lemma first_inv s2 n : forall h s1 acc x r, wco (wrun n) h (WSCombine (Some (WCmbFirst s1 s2))) acc = WDone x r ->
  exists h1 r1, CoTo h s1 acc h1 r1.
Proof.
  induction n as [|n IH]; intros h s1 acc x r H; [discriminate|].
  apply co_inv in H as (h2 & s' & r2 & H1 & H2). destruct n as [|n]; [discriminate|].
  apply sk_inv in H1 as (h3 & s3 & r3 & H3 & H4). destruct n as [|n]; [discriminate|].
  cbn [wrun wne wne_body] in H3. unfold won_ok in H3.
  destruct (wsk (wrun n) h s1) as [| |h4 [s4 r4]] eqn:E; cbn in H3; try discriminate.
  pose proof (sk_no_noop _ _ _ _ _ _ E) as Hn. destruct r4 as [[ev|]|e]; cbn in H3; injection H3 as <- <- <-.
  - assert (noop (inl (Some ev)) = false) as Hn' by done. rewrite Hn' in H4. destruct H4 as [-> [= -> ->]]. cbn in H2.
    destruct (IH _ _ _ _ _ H2) as (h5 & r5 & H5). exists h5, r5. eapply co_more_event; [eexists; exact E|done].
  - exists h4, (inl acc). exact (co_end _ _ acc _ _ _ (ex_intro _ _ E)).
  - exists h4, (inr e). exact (co_end _ _ acc _ _ _ (ex_intro _ _ E)).
Qed.
Lemma second_run n : forall h s acc x r, wco (wrun n) h s acc = WDone x r ->
  CoTo h (WSCombine (Some (WCmbSecond s))) acc x r.
Proof.
  induction n as [|n IH]; intros h s acc x r H; [discriminate|].
  apply co_inv in H as (h2 & s' & r2 & H1 & H2). pose proof (sk_no_noop _ _ _ _ _ _ H1) as Hn.
  assert (SkTo h (WSCombine (Some (WCmbSecond s))) h2
    (match r2 with inl (Some _) => WSCombine (Some (WCmbSecond s')) | _ => WSCombine None end, r2)) as H3.
  { apply sk_event; [|done]. exists (S n). cbn. rewrite H1. by destruct r2 as [[]|]. }
  destruct r2 as [[ev|]|e]; cbn in H2.
  - eapply co_more_event; [exact H3|]. by apply IH.
  - destruct H2 as [-> ->]. exact (co_end _ _ acc _ _ _ H3).
  - destruct H2 as [-> ->]. exact (co_end _ _ acc _ _ _ H3).
Qed.
Lemma second_inv n : forall h s acc x r, wco (wrun n) h (WSCombine (Some (WCmbSecond s))) acc = WDone x r ->
  CoTo h s acc x r.
Proof.
  induction n as [|n IH]; intros h s acc x r H; [discriminate|].
  apply co_inv in H as (h2 & s' & r2 & H1 & H2). destruct n as [|n]; [discriminate|].
  apply sk_inv in H1 as (h3 & s3 & r3 & H3 & H4). destruct n as [|n]; [discriminate|].
  cbn [wrun wne wne_body] in H3. unfold wpassthrough, won_ok in H3.
  destruct (wsk (wrun n) h s) as [| |h4 [s4 r4]] eqn:E; cbn in H3; try discriminate.
  pose proof (sk_no_noop _ _ _ _ _ _ E) as Hn.
  destruct r4 as [[ev|]|e]; cbn in H3; injection H3 as <- <- <-; rewrite Hn in H4; destruct H4 as [-> [= -> ->]]; cbn in H2.
  - eapply co_more_event; [eexists; exact E|]. by apply IH.
  - destruct H2 as [-> ->]. exact (co_end _ _ acc _ _ _ (ex_intro _ _ E)).
  - destruct H2 as [-> ->]. exact (co_end _ _ acc _ _ _ (ex_intro _ _ E)).
Qed.

Lemma combined h s1 s2 x r :
  CoTo h (WSCombine (Some (WCmbFirst s1 s2))) [] x r <->
  (exists h1 t r0, CoTo h s1 [] h1 (inl t) /\ CoTo h1 s2 [] x r0 /\ r = followed t r0) \/
  (exists e, CoTo h s1 [] x (inr e) /\ r = inr e).
Proof.
  split.
  - intros [n H]. pose proof (first_inv _ _ _ _ _ _ _ H) as (h1 & r1 & [m H1]).
    pose proof (first_run s2 _ _ _ _ _ _ H1) as H2. destruct r1 as [l|e].
    + left. exists h1, l.
      assert (CoTo h1 (WSCombine (Some (WCmbSecond s2))) l x r) as H3.
      { clear H2. revert h s1 n H m H1.
        assert (forall n h s1 acc, wco (wrun n) h (WSCombine (Some (WCmbFirst s1 s2))) acc = WDone x r ->
          forall m, wco (wrun m) h s1 acc = WDone h1 (inl l) -> CoTo h1 (WSCombine (Some (WCmbSecond s2))) l x r) as G; [|eauto].
        intros n h s1 acc H m. revert n h s1 acc H. induction m as [|m IH]; intros n h s1 acc H H1; [discriminate|].
        apply co_inv in H1 as (h2 & s' & r2 & H2 & H3). pose proof (sk_no_noop _ _ _ _ _ _ H2) as Hn.
        pose proof (first_ne _ _ s2 _ _ _ (ex_intro _ _ H2)) as H4. destruct r2 as [[ev|]|e]; cbn in H3.
        - apply sk_event in H4; [|done]. destruct n as [|n]; [discriminate|].
          apply co_inv in H as (h5 & s5 & r5 & H5 & H6). destruct H4 as [k H4].
          apply (sk_more _ (n + k)) in H4; [|lia]. apply (sk_more _ (n + k)) in H5; [|lia].
          rewrite H4 in H5. injection H5 as <- <- <-. cbn in H6. by eapply IH.
        - destruct H3 as [-> [= ->]]. eapply co_after; [eexists; exact H|exact H4].
        - destruct H3 as [_ [=]]. }
      destruct H3 as [k H3]. apply second_inv in H3. apply co_from_inv in H3 as (r0 & -> & H3).
      exists r0. split; [by exists m|done].
    + right. exists e. destruct (co_det _ _ _ _ _ _ _ (ex_intro _ _ H) H2) as [-> ->]. split; [by exists m|done].
  - intros [(h1 & t & r0 & [n H1] & H2 & ->)|(e & [n H1] & ->)].
    + apply (first_run s2 _ _ _ _ _ _ H1). apply (co_from _ _ t) in H2 as [k H2]. by eapply second_run.
    + exact (first_run s2 _ _ _ _ _ _ H1).
Qed.

(** ** [remove] *)

Lemma dr_inv n : forall h s acc h' y r, wdr (wrun n) h s = WDone h' (y, r) ->
  exists s', y = WSRemove s' /\
  match r with
  | inl (Some _) => False
  | inl None => exists t, CoTo h s acc h' (inl t)
  | inr e => CoTo h s acc h' (inr e)
  end.
Proof.
  induction n as [|n IH]; intros h s acc h' y r H; [discriminate|]. cbn [wrun wdr] in H. unfold wdr_body in H.
  destruct (wne (wrun n) h s) as [| |h1 [s1 r1]] eqn:E; cbn in H; try discriminate.
  destruct r1 as [[ev|]|e].
  - destruct (noop (inl (Some ev))) eqn:En.
    + destruct ev; try discriminate. destruct (IH _ _ acc _ _ _ H) as (s' & -> & H1). exists s'. split; [done|].
      assert (NeTo h s h1 (s1, inl (Some Noop))) as Hn by by exists n.
      destruct r as [[]|]; [done| |]; [destruct H1 as [t H1]; exists t|]; by eapply co_noop.
    + destruct (IH _ _ (acc ++ [ev]) _ _ _ H) as (s' & -> & H1). exists s'. split; [done|].
      assert (SkTo h s h1 (s1, inl (Some ev))) as Hn by (apply sk_event; [by exists n|done]).
      destruct r as [[]|]; [done| |]; [destruct H1 as [t H1]; exists t|]; by eapply co_more_event.
  - injection H as <- <- <-. exists s1. split; [done|]. exists acc.
    assert (SkTo h s h1 (s1, inl None)) as Hn by (apply sk_event; [by exists n|done]). exact (co_end _ _ acc _ _ _ Hn).
  - injection H as <- <- <-. exists s1. split; [done|].
    assert (SkTo h s h1 (s1, inr e)) as Hn by (apply sk_event; [by exists n|done]). exact (co_end _ _ acc _ _ _ Hn).
Qed.
Definition DrTo h s h' x : Prop := exists n, wdr (wrun n) h s = WDone h' x.
Lemma dr_more n m h s h' x : n <= m -> wdr (wrun n) h s = WDone h' x -> wdr (wrun m) h s = WDone h' x.
Proof. intros Hle. apply wle_done. by apply (wle_run_le n m Hle). Qed.
Lemma dr_step h s h1 s1 ev x y : NeTo h s h1 (s1, inl (Some ev)) -> DrTo h1 s1 x y -> DrTo h s x y.
Proof.
  intros [n H] [m H']. exists (S (n + m)). cbn [wrun wdr]. unfold wdr_body.
  rewrite (ne_more n (n + m) _ _ _ _ ltac:(lia) H). cbn. by apply (dr_more m); [lia|].
Qed.
Lemma dr_stop h s h1 s1 r : NeTo h s h1 (s1, r) -> match r with inl (Some _) => False | _ => True end ->
  DrTo h s h1 (WSRemove s1, r).
Proof. intros [n H] Hr. exists (S n). cbn [wrun wdr]. unfold wdr_body. rewrite H. by destruct r as [[]|]. Qed.
Lemma dr_sk n : forall h s h1 s1 r, wsk (wrun n) h s = WDone h1 (s1, r) ->
  match r with
  | inl (Some _) => forall x y, DrTo h1 s1 x y -> DrTo h s x y
  | _ => DrTo h s h1 (WSRemove s1, r)
  end.
Proof.
  induction n as [|n IH]; intros h s h1 s1 r H; [discriminate|].
  apply sk_inv in H as (h2 & s2 & r2 & H1 & H2). destruct (noop r2) eqn:En.
  - destruct r2 as [[[]|]|]; try discriminate. specialize (IH _ _ _ _ _ H2).
    destruct r as [[]|]; [intros x y Hx; eapply dr_step; [by exists n|]; by apply IH|..]; eapply dr_step; eauto; by exists n.
  - destruct H2 as [-> [= -> ->]]. destruct r2 as [[]|].
    + intros x y Hx. eapply dr_step; [by exists n|done].
    + apply dr_stop; [by exists n|done].
    + apply dr_stop; [by exists n|done].
Qed.
Lemma dr_run n : forall h s acc h' r, wco (wrun n) h s acc = WDone h' r ->
  exists s', DrTo h s h' (WSRemove s', match r with inl _ => inl None | inr e => inr e end).
Proof.
  induction n as [|n IH]; intros h s acc h' r H; [discriminate|].
  apply co_inv in H as (h2 & s' & r2 & H1 & H2). apply dr_sk in H1. destruct r2 as [[ev|]|e]; cbn in H2.
  - destruct (IH _ _ _ _ _ H2) as (s2 & H3). eauto.
  - destruct H2 as [-> ->]. eauto.
  - destruct H2 as [-> ->]. eauto.
Qed.
Lemma removed h s x r : CoTo h (WSRemove s) [] x r <-> exists r0, CoTo h s [] x r0 /\ r = instead [] r0.
Proof.
  assert (forall x r0, CoTo h s [] x r0 -> CoTo h (WSRemove s) [] x (instead [] r0)) as Hf.
  { clear x. intros x r0 [n H]. apply dr_run in H as (s' & m & H).
    assert (NeTo h (WSRemove s) x (WSRemove s', match r0 with inl _ => inl None | inr e => inr e end)) as Hn.
    { by exists (S m). }
    apply sk_event in Hn; [|by destruct r0]. apply (co_end _ _ []) in Hn. by destruct r0. }
  split; [|intros (r0 & H & ->); by apply Hf].
  intros Hc. pose proof Hc as ([|[|[|n]]] & H0); try discriminate.
  apply co_inv in H0 as (h2 & s2 & r2 & H1 & H2). apply sk_inv in H1 as (h3 & s3 & r3 & H1 & _).
  cbn [wrun wne wne_body] in H1. destruct (dr_inv _ _ _ [] _ _ _ H1) as (s' & -> & H3).
  destruct r3 as [[]|e]; [done| |].
  - destruct H3 as [t H3]. destruct (co_det _ _ _ _ _ _ _ Hc (Hf _ _ H3)) as [-> ->]. eauto.
  - destruct (co_det _ _ _ _ _ _ _ Hc (Hf _ _ H3)) as [-> ->]. eauto.
Qed.

(** ** Content *)

Lemma ne_emit h s h1 s1 ev acc x r : NeTo h s h1 (s1, inl (Some ev)) ->
  CoTo h1 s1 (acc ++ strip_noops [ev]) x r -> CoTo h s acc x r.
Proof.
  intros Hn Hc. destruct (noop (inl (Some ev))) eqn:En.
  - destruct ev; try discriminate. cbn in Hc. rewrite app_nil_r in Hc. by eapply co_noop.
  - apply sk_event in Hn; [|done]. eapply co_more_event; [exact Hn|]. by destruct ev.
Qed.
Lemma ne_none h s h1 s1 acc : NeTo h s h1 (s1, inl None) -> CoTo h s acc h1 (inl acc).
Proof. intros Hn. apply sk_event in Hn; [|done]. exact (co_end _ _ acc _ _ _ Hn). Qed.
Lemma ne_err h s h1 s1 e acc : NeTo h s h1 (s1, inr e) -> CoTo h s acc h1 (inr e).
Proof. intros Hn. apply sk_event in Hn; [|done]. exact (co_end _ _ acc _ _ _ Hn). Qed.
Lemma strip_cons ev l : strip_noops (ev :: l) = strip_noops [ev] ++ strip_noops l.
Proof. by destruct ev. Qed.

Lemma template_run h evs (i : nat) : forall acc, CoTo h (WSTemplate evs i) acc h (inl (acc ++ strip_noops (drop i evs))).
Proof.
  remember (length evs - i) as d eqn:Hd. revert i Hd. induction d as [|d IH]; intros i Hd acc.
  - rewrite drop_ge by lia. assert (nth_error evs i = None) as Ei by (apply nth_error_None; lia).
    cbn. rewrite app_nil_r. eapply ne_none. exists 1. cbn. by rewrite Ei.
  - destruct (lookup_lt_is_Some_2 evs i) as [ev Ei0]; [lia|]. pose proof Ei0 as Ei. rewrite <- nth_error_is in Ei.
    rewrite (drop_S _ _ _ Ei0), strip_cons, app_assoc. eapply ne_emit; [exists 1; cbn; by rewrite Ei|]. apply IH. lia.
Qed.
Lemma user_run h stop evs : forall acc, CoTo h (WSUser evs stop) acc h
  (match stop with None => inl (acc ++ strip_noops evs) | Some e => inr e end).
Proof.
  induction evs as [|ev evs IH]; intros acc.
  - destruct stop; [eapply ne_err|cbn; rewrite app_nil_r; eapply ne_none]; by exists 1.
  - rewrite strip_cons, app_assoc. eapply ne_emit; [by exists 1|]. apply IH.
Qed.
Lemma through_fallible : Through (W := W) (fun s => WSFallible (Some (WFEmit s))) (WSFallible None).
Proof.
  split.
  - intros n h s h' s' r H. cbn [wrun wne wne_body]. unfold wpassthrough, won_ok. rewrite H. by destruct r as [[]|].
  - intros n h s h' x. cbn [wrun wne wne_body]. unfold wpassthrough, won_ok.
    destruct (wne (wrun n) h s) as [| |h1 [s1 [[]|]]]; try discriminate; intros H; injection H as <- <-; eauto.
Qed.
Lemma fallible_co h s acc x r : CoTo h (WSFallible (Some (WFStart (inl s)))) acc x r <-> CoTo h s acc x r.
Proof.
  rewrite <- (through_co _ _ through_fallible h s). refine (co_ne _ _ _ _ _ _ _ _). by exists 1.
Qed.
Lemma plain_total : forall c, exists r, ContentGives c r.
Proof.
  fix IH 1. intros [evs|d|v|t|z|evs [e|]|[c|e]]; try (by eexists; constructor).
  destruct (IH c) as [r H]. exists r. by constructor.
Qed.
Lemma strip_idem l : strip_noops (strip_noops l) = strip_noops l.
Proof. induction l as [|ev l IH]; [done|]. unfold strip_noops in *. destruct ev; cbn; try exact IH; f_equal; exact IH. Qed.
Lemma plain_run c r : ContentGives c r -> forall h, CoTo h (winto_stream c) [] h (applied r).
Proof.
  induction 1; intros h; cbn [winto_stream applied].
  - exact (template_run h evs 0 []).
  - eapply ne_emit; [by exists 1|]. eapply ne_none. by exists 1.
  - eapply ne_emit; [by exists 1|]. eapply ne_none. by exists 1.
  - eapply ne_emit; [by exists 1|]. eapply ne_none. by exists 1.
  - eapply ne_emit; [by exists 1|]. eapply ne_none. by exists 1.
  - rewrite strip_idem. exact (user_run h None evs []).
  - exact (user_run h (Some e) evs []).
  - apply fallible_co. apply IHContentGives.
  - eapply ne_err. by exists 1.
Qed.
Lemma live_run (f : live W) k w r w' : LiveGives f k w r w' -> forall f0 g acc, (forall n, f0 n = f (k + n)) ->
  CoTo (g, w) (WSLive (Some f0)) acc (g, w') (followed acc r).
Proof.
  induction 1 as [k w w' E|k w e w' E|k w w1 res w' E _ IH|k w ev w1 res w' E Hev _ IH]; intros f0 g acc Hf.
  all: assert (f0 0 w = f k w) as E0 by (rewrite Hf; f_equal; lia); rewrite E in E0.
  all: assert (forall n, f0 (S n) = f (S k + n)) as Hf' by (intros n; rewrite Hf; f_equal; lia).
  - cbn. rewrite app_nil_r. eapply ne_none. exists 1. cbn. by rewrite E0.
  - eapply ne_err. exists 1. cbn. by rewrite E0.
  - eapply co_noop; [exists 1; cbn; by rewrite E0|]. by apply IH.
  - eapply ne_emit; [exists 1; cbn; by rewrite E0|].
    assert (strip_noops [ev] = [ev]) as -> by by destruct ev.
    assert (followed acc (followed [ev] res) = followed (acc ++ [ev]) res) as -> by
      (destruct res; cbn; [by rewrite <- app_assoc|done]).
    by apply IH.
Qed.
Lemma live_inv (f : live W) n : forall m k w f0 g acc x r, (forall n, f0 n = f (k + n)) ->
  fin n m (g, w) (WSLive (Some f0)) acc x r -> exists w' r0, x = (g, w') /\ r = followed acc r0 /\ LiveGives f k w r0 w'.
Proof.
  induction n as [n IHn] using lt_wf_ind. intros m. induction m as [m IHm] using lt_wf_ind.
  intros k w f0 g acc x r Hf (h1 & s1 & r1 & H1 & H2). destruct m as [|m]; [discriminate|].
  apply sk_inv in H1 as (h3 & s3 & r3 & H3 & H4). destruct m as [|m]; [discriminate|]. cbn in H3.
  assert (f0 0 w = f k w) as E0 by (rewrite Hf; f_equal; lia).
  assert (forall n, f0 (S n) = f (S k + n)) as Hf' by (intros j; rewrite Hf; f_equal; lia).
  destruct (f0 0 w) as [w1 [[ev|]|e]] eqn:E; cbn in H3; injection H3 as <- <- <-.
  - destruct (noop (inl (Some ev))) eqn:En.
    + destruct ev; try discriminate.
      destruct (IHm (S m) ltac:(lia) (S k) w1 _ g acc x r Hf') as (w' & r0 & -> & -> & Hl); [by exists h1, s1, r1|].
      exists w', r0. split_and!; try done. by eapply LG_noop.
    + destruct H4 as [-> [= -> ->]]. cbn in H2. destruct n as [|n]; [discriminate|]. apply co_inv in H2.
      destruct (IHn n ltac:(lia) n (S k) w1 _ g (acc ++ [ev]) x r Hf' H2) as (w' & r0 & -> & -> & Hl).
      exists w', (followed [ev] r0). split_and!; try done.
      * destruct r0; cbn; [by rewrite <- app_assoc|done].
      * eapply LG_event; [done| |done]. by intros ->.
  - cbn in H4. destruct H4 as [-> [= -> ->]]. destruct H2 as [-> ->].
    exists w1, (inl []). split_and!; [done|cbn; by rewrite app_nil_r|]. by constructor.
  - cbn in H4. destruct H4 as [-> [= -> ->]]. destruct H2 as [-> ->].
    exists w1, (inr e). split_and!; [done|done|]. by constructor.
Qed.
Lemma content_co (c : wcontent W) : forall g w x r,
  CoTo (g, w) (wcontent_stream c) [] x r <-> exists w', x = (g, w') /\ ContentRuns c w r w'.
Proof.
  induction c as [c|f|c IH]; intros g w x r; cbn [wcontent_stream].
  - split.
    + intros H. destruct (plain_total c) as [r0 Hr]. destruct (co_det _ _ _ _ _ _ _ H (plain_run _ _ Hr (g, w))) as [-> ->].
      exists w. split; [done|]. by constructor.
    + intros (w' & -> & H). inversion H; subst. by apply plain_run.
  - split.
    + intros H. apply co_split in H as (n & m & H).
      destruct (live_inv f n m 0 w f g [] x r (fun n => eq_refl) H) as (w' & r0 & -> & -> & Hl).
      exists w'. split; [done|]. constructor. by destruct r0.
    + intros (w' & -> & H). inversion H as [|? ? ? ? HL|]; subst. pose proof (live_run _ _ _ _ _ HL f g [] (fun n => eq_refl)) as H3. by destruct r.
  - rewrite fallible_co, IH. split; intros (w' & -> & H); exists w'; split; try done; [by constructor|by inversion H].
Qed.

(** ** The calls *)

Lemma append_state evs (p : wpipeline W) c w r w' :
  GivesIn evs (calls (p ++ [WAppend c])) w r w' <->
  (exists t w1 r0, GivesIn evs (calls p) w (inl t) w1 /\ ContentRuns c w1 r0 w' /\ r = followed t r0) \/
  (exists e, r = inr e /\ GivesIn evs (calls p) w (inr e) w').
Proof.
  rewrite (gives_run _ _ (fun s => wappend_new s (wcontent_stream c))) by done.
  destruct (built evs p w) as (g & s & Hb). destruct (Hb w) as [E Hg]. split.
  - intros (h & s' & g' & E' & Hc). rewrite E in E'. injection E' as <- <-.
    apply combined in Hc as [([g1 w1] & t & r0 & H1 & H2 & ->)|(e & H1 & ->)].
    + apply content_co in H2 as (w2 & [= -> ->] & H2). left. exists t, w1, r0. split; [apply Hg; eauto|done].
    + right. exists e. split; [done|]. apply Hg; eauto.
  - intros [(t & w1 & r0 & H1 & H2 & ->)|(e & -> & H1)]; apply Hg in H1 as [g1 H1]; exists (g, w), s, g1; (split; [done|]); apply combined.
    + left. exists (g1, w1), t, r0. split; [done|]. split; [|done]. apply content_co. eauto.
    + right. eauto.
Qed.
Lemma before_state evs (p : wpipeline W) c w r w' (o : wop W) (k : wstrm W -> wstrm W) (K : list event + stream_error -> list event + stream_error) :
  (forall h s, wbuild_op o h s = WDone h (wprepend_new (k s) (wcontent_stream c))) ->
  (forall h s x r, CoTo h (k s) [] x r <-> exists r0, CoTo h s [] x r0 /\ r = K r0) ->
  (GivesIn evs (calls (p ++ [o])) w r w' <->
  (exists t w1 r0, ContentRuns c w (inl t) w1 /\ GivesIn evs (calls p) w1 r0 w' /\ r = followed t (K r0)) \/
  (exists e, r = inr e /\ ContentRuns c w (inr e) w')).
Proof.
  intros Ho Hk. rewrite (gives_run _ _ (fun s => wprepend_new (k s) (wcontent_stream c))) by done.
  destruct (built evs p w) as (g & s & Hb). split.
  - intros (h & s' & g' & E' & Hc). rewrite (proj1 (Hb w)) in E'. injection E' as <- <-.
    apply combined in Hc as [(h1 & t & r0 & H1 & H2 & ->)|(e & H1 & ->)].
    + apply content_co in H1 as (w2 & -> & H1). apply Hk in H2 as (r1 & H2 & ->). left. exists t, w2, r1.
      split; [done|]. split; [|done]. apply (Hb w2). eauto.
    + apply content_co in H1 as (w2 & [= -> ->] & H1). right. eauto.
  - intros [(t & w1 & r0 & H1 & H2 & ->)|(e & -> & H1)].
    + apply (Hb w1) in H2 as [g1 H2]. exists (g, w), s, g1. split; [apply Hb|]. apply combined. left.
      exists (g, w1), t, (K r0). split; [apply content_co; eauto|]. split; [|done]. apply Hk. eauto.
    + exists (g, w), s, g. split; [apply Hb|]. apply combined. right. exists e. split; [|done]. apply content_co. eauto.
Qed.
Lemma prepend_state evs (p : wpipeline W) c w r w' :
  GivesIn evs (calls (p ++ [WPrepend c])) w r w' <->
  (exists t w1 r0, ContentRuns c w (inl t) w1 /\ GivesIn evs (calls p) w1 r0 w' /\ r = followed t r0) \/
  (exists e, r = inr e /\ ContentRuns c w (inr e) w').
Proof.
  apply (before_state evs p c w r w' (WPrepend c) (fun s => s) (fun r => r)); [done|].
  intros h s x r1. split; [eauto|]. by intros (r0 & H & ->).
Qed.
Lemma replace_state evs (p : wpipeline W) c w r w' :
  GivesIn evs (calls (p ++ [WReplace c])) w r w' <->
  (exists t w1 r0, ContentRuns c w (inl t) w1 /\ GivesIn evs (calls p) w1 r0 w' /\ r = instead t r0) \/
  (exists e, r = inr e /\ ContentRuns c w (inr e) w').
Proof.
  rewrite (before_state evs p c w r w' (WReplace c) (fun s => WSRemove s) (instead [])); [|done|apply removed].
  split; (intros [(t & w1 & r0 & H1 & H2 & ->)|H]; [left; exists t, w1, r0; split_and!; [done|done|]; destruct r0; cbn; by rewrite ?app_nil_r|by right]).
Qed.
Lemma remove_state evs (p : wpipeline W) w r w' :
  GivesIn evs (calls (p ++ [WRemove])) w r w' <-> exists r0, GivesIn evs (calls p) w r0 w' /\ r = instead [] r0.
Proof.
  rewrite (gives_run _ _ (fun s => WSRemove s)) by done. destruct (built evs p w) as (g & s & Hb). destruct (Hb w) as [E Hg]. split.
  - intros (h & s' & g' & E' & Hc). rewrite E in E'. injection E' as <- <-. apply removed in Hc as (r0 & Hc & ->).
    exists r0. split; [apply Hg; eauto|done].
  - intros (r0 & H & ->). apply Hg in H as [g1 H]. exists (g, w), s, g1. split; [done|]. apply removed. eauto.
Qed.
End Content.
