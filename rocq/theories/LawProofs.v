(** Exchanging pipelines that agree. *)
From Coq Require Import String ZArith List Bool.
From stdpp Require Import gmap.
From Verif Require Import Text Event Input Parse Selector Machine Template.
From Verif Require Import SpecText SpecAttr SpecParse SpecTree SpecTransform SpecOps SpecLaws.
From Verif Require Import AttrProofs Trace TraceProofs PipelineProofs TreeProofs SelectionProofs OpProofs.
Local Open Scope nat_scope.

(** ** One direction, on traces *)

Definition Below (e : bool) (f g : trace -> trace) : Prop :=
  forall x y, Good e x -> snd x = None -> f x = (y, None) -> g x = (y, None).

Lemma tapp_none x y z : tapp x y = (z, None) ->
  exists a b, x = (a, None) /\ y = (b, None) /\ z = a ++ b.
Proof.
  destruct x as [a [e|]], y as [b t]; unfold tapp; simpl; [discriminate|].
  intros [= <- ->]. eauto.
Qed.
Lemma tapp_done a b : tapp (a, None) (b, None) = (a ++ b, None).
Proof. reflexivity. Qed.

Lemma below_refl e f : Below e f f.
Proof. intros x y _ _ H. exact H. Qed.
Lemma below_good e e' f g : (e' = true -> e = true) -> Below e' f g -> Below e f g.
Proof.
  intros He H x y Hx. apply H. destruct e, e'; auto; [now apply good_false with true|].
  now discriminate He.
Qed.
Lemma below_then e e1 f f' g g' : Keeps f e e1 -> Keeps f' e1 false ->
  Below e f g -> Below e1 f' g' -> Below e (fun x => f' (f x)) (fun x => g' (g x)).
Proof.
  intros Hf Hf' H H' x y Hx Ex E. destruct (Hf x Hx) as [Hg _].
  destruct (f x) as [z [err|]] eqn:Ef.
  - destruct (Hf' _ Hg) as [_ Hs]. rewrite E in Hs. simpl in Hs. destruct Hs; [discriminate|reflexivity].
  - rewrite (H x z Hx Ex Ef). exact (H' _ y Hg eq_refl E).
Qed.

Lemma below_select m f g d : (forall k, Keeps (f k) true false) -> (forall k, Below true (f k) (g k)) ->
  forall n evs level calls st y,
  length evs <= n -> nest st evs = Some [] -> level = length st ->
  d_select n m f d level calls evs None = (y, None) ->
  d_select n m g d level calls evs None = (y, None).
Proof.
  intros Hf H. induction n as [|n IH]; intros evs level calls st y Hlen Hn Hlev E.
  { destruct evs; [exact E|simpl in Hlen; lia]. }
  destruct evs as [|ev rest]; [exact E|]. simpl in E |- *.
  destruct (include d level && matches m ev).
  - pose proof (single_good st ev rest [] None Hn (fun _ => eq_refl)) as Hs.
    destruct (d_single ev rest None) as [el rest'] eqn:Ed. destruct Hs as [Hel Hrest].
    apply tapp_none in E as (a & b & E1 & E2 & ->).
    destruct (Hf calls el Hel) as [_ Hst]. rewrite E1 in Hst. simpl in Hst.
    destruct Hrest as [(Happ & Htel & Hnest)|Htel]; [|destruct (Hst Htel); reflexivity].
    assert (length rest' <= n) as Hlen'.
    { apply (f_equal (@length event)) in Happ. rewrite app_length in Happ. simpl in Happ, Hlen.
      destruct el as [[|e0 el] tel]; simpl in *; [|lia]. subst tel. contradiction. }
    rewrite (H calls el a Hel Htel E1), (IH rest' level (S calls) st b Hlen' Hnest Hlev E2).
    reflexivity.
  - simpl in Hn. destruct (nest1 st ev) as [st1|] eqn:En; [|discriminate].
    pose proof (nest1_adjust _ _ _ En) as Ha. rewrite <- Hlev in Ha. rewrite Ha in E |- *.
    apply tapp_none in E as (a & b & [= <-] & E2 & ->). simpl in Hlen.
    rewrite (IH rest (length st1) calls st1 b ltac:(lia) Hn eq_refl E2). reflexivity.
Qed.
Lemma below_select_once m f g d : Keeps f true false -> Below true f g ->
  forall evs level st y, nest st evs = Some [] -> level = length st ->
  d_select_once m f d level evs None = (y, None) ->
  d_select_once m g d level evs None = (y, None).
Proof.
  intros Hf H. induction evs as [|ev rest IH]; intros level st y Hn Hlev E; [exact E|].
  simpl in E |- *. destruct (include d level && matches m ev).
  - pose proof (single_good st ev rest [] None Hn (fun _ => eq_refl)) as Hs.
    destruct (d_single ev rest None) as [el rest'] eqn:Ed. destruct Hs as [Hel Hrest].
    apply tapp_none in E as (a & b & E1 & E2 & ->).
    destruct (Hf el Hel) as [_ Hst]. rewrite E1 in Hst. simpl in Hst.
    destruct Hrest as [(Happ & Htel & Hnest)|Htel]; [|destruct (Hst Htel); reflexivity].
    injection E2 as <-. rewrite (H el a Hel Htel E1). reflexivity.
  - simpl in Hn. destruct (nest1 st ev) as [st1|] eqn:En; [|discriminate].
    pose proof (nest1_adjust _ _ _ En) as Ha. rewrite <- Hlev in Ha. rewrite Ha in E |- *.
    apply tapp_none in E as (a & b & [= <-] & E2 & ->).
    rewrite (IH (length st1) st1 b Hn eq_refl E2). reflexivity.
Qed.

Lemma good_nest e x : Good e x -> snd x = None -> nest [] (fst x) = Some [].
Proof. intros H E. apply good_false in H. unfold Good in H. now rewrite E in H. Qed.
Lemma below_sel m f g d e : (forall k, Keeps (f k) true false) -> (forall k, Below true (f k) (g k)) ->
  Below e (fun x => d_select (length (fst x)) m f d 0 0 (fst x) (snd x))
          (fun x => d_select (length (fst x)) m g d 0 0 (fst x) (snd x)).
Proof.
  intros Hf H x y Hx Ex. rewrite Ex.
  apply (below_select m f g d Hf H _ _ 0 0 []); auto. eapply good_nest; eauto.
Qed.
Lemma below_sel_once m f g d e : Keeps f true false -> Below true f g ->
  Below e (fun x => d_select_once m f d 0 (fst x) (snd x))
          (fun x => d_select_once m g d 0 (fst x) (snd x)).
Proof.
  intros Hf H x y Hx Ex. rewrite Ex.
  apply (below_select_once m f g d Hf H _ 0 []); auto. eapply good_nest; eauto.
Qed.
Lemma below_repeat fs gs e : Forall2 (Below e) fs gs -> Below e (d_repeat fs) (d_repeat gs).
Proof.
  intros H x y Hx Ex. unfold d_repeat. rewrite Ex. revert y.
  induction H as [|f g fs gs Hfg _ IH]; intros y E; [exact E|]. simpl in E |- *.
  apply tapp_none in E as (a & b & E1 & E2 & ->).
  rewrite (Hfg x a Hx Ex E1), (IH b E2). reflexivity.
Qed.
Lemma below_contents f g : Below false f g -> Below true (d_contents f) (d_contents g).
Proof.
  intros H x y Hx Ex E. destruct x as [evs t]. simpl in Ex. subst t. unfold Good in Hx. simpl in Hx.
  destruct evs as [|[] rest]; try contradiction; try exact E.
  - destruct Hx as (_ & kids & c & -> & _ & Hk). unfold d_contents in E |- *.
    rewrite removelast_last in *.
    apply tapp_none in E as (a & b & [= <-] & E2 & ->).
    apply tapp_none in E2 as (a' & b' & E3 & [= <-] & ->).
    rewrite (H (kids, None) a' Hk eq_refl E3). reflexivity.
  - unfold d_contents in E |- *.
    apply tapp_none in E as (a & b & [= <-] & E2 & ->).
    apply tapp_none in E2 as (a' & b' & E3 & [= <-] & ->).
    rewrite (H ([], None) a' eq_refl eq_refl E3). reflexivity.
Qed.

(** ** Both directions, for pipelines *)

Definition Exch (e : bool) (e' : bool) (f g : trace -> trace) : Prop :=
  Keeps f e e' /\ Keeps g e e' /\ Below e f g /\ Below e g f.

Lemma exch_weaken e e' f g : Exch e e' f g -> Exch e false f g.
Proof. intros (H1 & H2 & H3 & H4). split; [|split; auto]; eapply keeps_weaken; eauto. Qed.
Lemma exch_kind e e1 e2 f g : (e2 = true -> e1 = true) -> Exch e e1 f g -> Exch e e2 f g.
Proof.
  intros He H. destruct e2; [now rewrite He in H|]. eapply exch_weaken; eauto.
Qed.
Lemma exch_refl e e' f : Keeps f e e' -> Exch e e' f f.
Proof. intros H. split; [|split; [|split]]; auto using below_refl. Qed.
Lemma exch_then e e1 e2 f f' g g' : Exch e e1 f g -> Exch e1 e2 f' g' ->
  Exch e e2 (fun x => f' (f x)) (fun x => g' (g x)).
Proof.
  intros (H1 & H2 & H3 & H4) (H1' & H2' & H3' & H4'). split; [|split; [|split]].
  - eapply keeps_comp; eauto.
  - eapply keeps_comp; eauto.
  - eapply below_then; eauto. eapply keeps_weaken; eauto.
  - eapply below_then; eauto. eapply keeps_weaken; eauto.
Qed.
Lemma exch_select m f g d e t : (forall k, Exch true (t k) (f k) (g k)) ->
  Exch e false (fun x => d_select (length (fst x)) m f d 0 0 (fst x) (snd x))
               (fun x => d_select (length (fst x)) m g d 0 0 (fst x) (snd x)).
Proof.
  intros H.
  assert (forall k, Keeps (f k) true false) as Hf by (intros k; eapply keeps_weaken, H).
  assert (forall k, Keeps (g k) true false) as Hg by (intros k; eapply keeps_weaken, H).
  split; [now apply keeps_select|]. split; [now apply keeps_select|].
  split; apply below_sel; auto; intros k; apply H.
Qed.
Lemma exch_select_once m f g d e e' : Exch true e' f g ->
  Exch e false (fun x => d_select_once m f d 0 (fst x) (snd x))
               (fun x => d_select_once m g d 0 (fst x) (snd x)).
Proof.
  intros H. apply exch_weaken in H. destruct H as (H1 & H2 & H3 & H4).
  split; [now apply keeps_select_once|]. split; [now apply keeps_select_once|].
  split; apply below_sel_once; auto.
Qed.
Lemma exch_repeat fs gs e : Forall2 (Exch e false) fs gs -> Exch e false (d_repeat fs) (d_repeat gs).
Proof.
  intros H. split; [|split; [|split]].
  - apply keeps_repeat. induction H as [|f g fs gs Hfg _ IH]; intros h []; [subst; apply Hfg|auto].
  - apply keeps_repeat. induction H as [|f g fs gs Hfg _ IH]; intros h []; [subst; apply Hfg|auto].
  - apply below_repeat. induction H; constructor; auto. apply H.
  - apply below_repeat. induction H; constructor; auto. apply H.
Qed.
Lemma exch_contents f g e' : Exch false e' f g -> Exch true true (d_contents f) (d_contents g).
Proof.
  intros H. apply exch_weaken in H. destruct H as (H1 & H2 & H3 & H4).
  split; [now apply keeps_contents|]. split; [now apply keeps_contents|].
  split; apply below_contents; auto.
Qed.

Lemma wellp_one o : WellP [o] -> Well o.
Proof. intros H. apply H. now left. Qed.
Lemma good_selection e x : Good e x -> snd x = None -> Selection e (fst x).
Proof.
  intros H E. unfold Good in H. rewrite E in H. destruct e; simpl.
  - now apply whole_element.
  - now apply well_nested_iff.
Qed.
Lemma selection_weaken e e0 evs : (e0 = true -> e = true) -> Selection e evs -> Selection e0 evs.
Proof.
  intros H Hs. destruct e, e0; auto; [|now discriminate H].
  destruct Hs as (x & Hx & _ & ->). now apply well_nested_tree.
Qed.
Lemma agree_below e0 p q e e1 e2 : Agree e0 p q -> (e0 = true -> e = true) ->
  typed e p e1 -> typed e q e2 -> ValidArgs p -> ValidArgs q -> Below e (d_pipe p) (d_pipe q).
Proof.
  intros Ha He Hp Hq Vp Vq x y Hx Ex E. destruct x as [evs t]. simpl in Ex. subst t.
  pose proof (good_selection e _ Hx eq_refl) as Hs. simpl in Hs.
  assert (Gives evs p (inl y)) as Hg.
  { apply (gives_iff evs p e e1 _ Hx Hp Vp). rewrite E. reflexivity. }
  apply (Ha evs y) in Hg; [|eapply selection_weaken; eauto].
  exact (gives_trace evs q e e2 y Hx Hq Vq Hg).
Qed.

Scheme exchange_min := Minimality for Exchange Sort Prop
  with exchange_each_min := Minimality for ExchangeEach Sort Prop.
Combined Scheme exchange_both from exchange_min, exchange_each_min.

Lemma exch_here e0 p q e e1 e2 : Agree e0 p q -> (e0 = true -> e = true) ->
  typed e p e1 -> typed e q e2 -> ValidArgs p -> ValidArgs q ->
  Exch e (e1 && e2) (d_pipe p) (d_pipe q).
Proof.
  intros Ha He Hp Hq Vp Vq.
  assert (Agree e0 q p) as Ha' by (intros evs out Hs; symmetry; now apply Ha).
  pose proof (keeps_pipe p e e1 Hp (valid_args_well _ Vp)) as K1.
  pose proof (keeps_pipe q e e2 Hq (valid_args_well _ Vq)) as K2.
  split; [|split; [|split]].
  - destruct e1, e2; simpl; auto; eapply keeps_weaken; eauto.
  - destruct e1, e2; simpl; auto; eapply keeps_weaken; eauto.
  - eapply agree_below; eauto.
  - eapply agree_below; eauto.
Qed.
Lemma exch_either e e' f g (o : bool) : Exch e e' f g -> Exch e (e' && o) f g.
Proof. apply exch_kind. now destruct e'. Qed.

Lemma exch_ext e e' f g f' g' : (forall x, f x = f' x) -> (forall x, g x = g' x) ->
  Exch e e' f g -> Exch e e' f' g'.
Proof.
  intros Hf Hg (H1 & H2 & H3 & H4). split; [|split; [|split]]; intros x.
  - rewrite <- Hf. apply H1.
  - rewrite <- Hg. apply H2.
  - intros y. rewrite <- Hf, <- Hg. apply H3.
  - intros y. rewrite <- Hf, <- Hg. apply H4.
Qed.

Lemma exchange_trace e0 p q : Agree e0 p q -> ValidArgs p -> ValidArgs q ->
  (forall e a b e', Exchange e0 p q e a b e' -> WellP a -> WellP b ->
     Exch e e' (d_pipe a) (d_pipe b)) /\
  (forall e l l' t, ExchangeEach e0 p q e l l' t ->
     (forall a, In a l -> WellP a) -> (forall b, In b l' -> WellP b) ->
     Forall2 (Exch e false) (map (fun p x => d_pipe p x) l) (map (fun p x => d_pipe p x) l') /\
     (l = [] <-> l' = [])).
Proof.
  intros Ha Vp Vq. apply exchange_both.
  - intros e e1 e2 He Hp Hq _ _. eapply exch_here; eauto.
  - intros e a e' Ht Hw _. apply exch_refl. now apply keeps_pipe.
  - intros e a b e1 a' b' e2 _ IH1 _ IH2 Wa Wb. apply wellp_app in Wa as [Wa Wa'].
    apply wellp_app in Wb as [Wb Wb'].
    eapply exch_ext; [intros x; symmetry; apply d_pipe_app|intros x; symmetry; apply d_pipe_app|].
    exact (exch_then _ _ _ _ _ _ _ (IH1 Wa Wb) (IH2 Wa' Wb')).
  - intros e a b e' _ IH Wa Wb. apply wellp_one in Wa, Wb.
    apply IH; [apply (well_sub _ _ Wa)|apply (well_sub _ _ Wb)]; reflexivity.
  - intros e a b e' first other _ IH Wa Wb. apply wellp_one in Wa, Wb.
    apply (exch_either e e' (d_pipe a) (d_pipe b)).
    apply IH; [apply (well_sub _ _ Wa)|apply (well_sub _ _ Wb)]; reflexivity.
  - intros e d sel a b t _ IH Wa Wb. apply wellp_one in Wa, Wb.
    destruct sel as [m|err]; [|apply exch_refl, keeps_error].
    apply (exch_select m (fun k => d_pipe (a k)) (fun k => d_pipe (b k)) d e t).
    intros k. apply IH; [apply (well_sub _ _ Wa)|apply (well_sub _ _ Wb)]; exists k; reflexivity.
  - intros e d sel a b e' _ IH Wa Wb. apply wellp_one in Wa, Wb.
    destruct sel as [m|err]; [|apply exch_refl, keeps_error].
    apply (exch_select_once m (d_pipe a) (d_pipe b) d e e').
    apply IH; [apply (well_sub _ _ Wa)|apply (well_sub _ _ Wb)]; reflexivity.
  - intros e l l' t _ IH Wa Wb. apply wellp_one in Wa, Wb. apply exch_repeat.
    apply IH; intros c Hc; [eapply (well_sub _ _ Wa Hc)|eapply (well_sub _ _ Wb Hc)].
  - intros e l l' t a b e' _ IH _ IH' Wa Wb. apply wellp_one in Wa, Wb.
    destruct IH as [H1 H2]; [intros c Hc; apply (well_sub _ _ Wa); now left|
                             intros c Hc; apply (well_sub _ _ Wb); now left|].
    destruct l as [|c l], l' as [|c' l']; try (now discriminate H2);
      try (now discriminate (proj2 H2 eq_refl)); try (now discriminate (proj1 H2 eq_refl)).
    + apply (exch_weaken e e' (d_pipe a) (d_pipe b)).
      apply IH'; [apply (well_sub _ _ Wa)|apply (well_sub _ _ Wb)]; right; reflexivity.
    + exact (exch_repeat _ _ e H1).
  - intros a b e' _ IH Wa Wb. apply wellp_one in Wa, Wb.
    apply (exch_contents (d_pipe a) (d_pipe b) e').
    apply IH; [apply (well_sub _ _ Wa)|apply (well_sub _ _ Wb)]; reflexivity.
  - intros d sel a b t _ IH Wa Wb. apply wellp_one in Wa, Wb.
    destruct sel as [m|err]; [|apply exch_refl, keeps_error].
    eapply (exch_contents _ _ false).
    apply (exch_select m (fun k => d_pipe (a k)) (fun k => d_pipe (b k)) d false t).
    intros k. apply IH; [apply (well_sub _ _ Wa)|apply (well_sub _ _ Wb)]; exists k; reflexivity.
  - intros d sel a b e' _ IH Wa Wb. apply wellp_one in Wa, Wb.
    destruct sel as [m|err]; [|apply exch_refl, keeps_error].
    eapply (exch_contents _ _ false).
    apply (exch_select_once m (d_pipe a) (d_pipe b) d false e').
    apply IH; [apply (well_sub _ _ Wa)|apply (well_sub _ _ Wb)]; reflexivity.
  - intros l l' t _ IH Wa Wb. apply wellp_one in Wa, Wb. eapply (exch_contents _ _ false).
    apply exch_repeat. apply IH; intros c Hc; [eapply (well_sub _ _ Wa Hc)|eapply (well_sub _ _ Wb Hc)].
  - intros l l' t a b e' _ IH _ IH' Wa Wb. apply wellp_one in Wa, Wb.
    destruct IH as [H1 H2]; [intros c Hc; apply (well_sub _ _ Wa); now left|
                             intros c Hc; apply (well_sub _ _ Wb); now left|].
    destruct l as [|c l], l' as [|c' l'];
      try (now discriminate (proj2 H2 eq_refl)); try (now discriminate (proj1 H2 eq_refl)).
    + apply (exch_weaken true e' (d_pipe a) (d_pipe b)).
      apply IH'; [apply (well_sub _ _ Wa)|apply (well_sub _ _ Wb)]; right; reflexivity.
    + apply (exch_weaken true true), (exch_contents _ _ false). exact (exch_repeat _ _ false H1).
  - intros e _ _. split; [constructor|tauto].
  - intros e a b e' l l' t _ IH _ IH' Wa Wb. destruct IH' as [H1 _].
    + intros c Hc. apply Wa. now right.
    + intros c Hc. apply Wb. now right.
    + split; [|split; discriminate]. constructor; [|exact H1].
      apply (exch_weaken e e'). apply IH; [apply Wa|apply Wb]; now left.
Qed.

Lemma exchange_success e0 p q e a b e' ea eb : Agree e0 p q -> Exchange e0 p q e a b e' ->
  ValidArgs p -> ValidArgs q -> typed e a ea -> typed e b eb -> ValidArgs a -> ValidArgs b ->
  Agree e a b.
Proof.
  intros Ha Hx Vp Vq Ta Tb Va Vb evs out Hs. apply selection_good in Hs.
  destruct (exchange_trace e0 p q Ha Vp Vq) as [H _].
  destruct (H _ _ _ _ Hx (valid_args_well _ Va) (valid_args_well _ Vb)) as (_ & _ & H1 & H2).
  split; intros Hg.
  - apply (gives_trace evs a e ea out Hs Ta Va) in Hg. apply H1 in Hg; auto.
    apply (gives_iff evs b e eb _ Hs Tb Vb). now rewrite Hg.
  - apply (gives_trace evs b e eb out Hs Tb Vb) in Hg. apply H2 in Hg; auto.
    apply (gives_iff evs a e ea _ Hs Ta Va). now rewrite Hg.
Qed.

(** Pipelines have a result, so failures are exchanged too. *)
Lemma always_result e p e' evs : typed e p e' -> ValidArgs p -> Selection e evs ->
  exists r, Gives evs p r.
Proof.
  intros Ht Hv Hs. exists (outcome (d_pipe p (evs, None))).
  apply (gives_iff evs p e e'); auto. now apply selection_good.
Qed.
Lemma agree_failure e a b ea eb evs : Agree e a b -> typed e a ea -> typed e b eb ->
  ValidArgs a -> ValidArgs b -> Selection e evs ->
  (exists err, Gives evs a (inr err)) <-> (exists err, Gives evs b (inr err)).
Proof.
  intros H Ta Tb Va Vb Hs. split; intros [err Hg].
  - destruct (always_result e b eb evs Tb Vb Hs) as [[out|err'] Hr]; eauto.
    apply (H evs out Hs) in Hr. pose proof (gives_det _ _ _ _ Hg Hr). discriminate.
  - destruct (always_result e a ea evs Ta Va Hs) as [[out|err'] Hr]; eauto.
    apply (H evs out Hs) in Hr. pose proof (gives_det _ _ _ _ Hg Hr). discriminate.
Qed.
