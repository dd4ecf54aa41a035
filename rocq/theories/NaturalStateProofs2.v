(** Proofs for C80: programs with state that are like themselves. *)
From Coq Require Import String ZArith Lia.
From stdpp Require Import gmap.
From Verif Require Import Text Event Input Parse Selector Machine MachineState.
From Verif Require Import SpecTransform SpecLaws SpecState SpecStop SpecNatural SpecNaturalState.
From Verif Require Import StateProofs4 TimeProofs2 NaturalProofs NaturalProofs2 NaturalStateProofs.
Local Open Scope nat_scope.

Lemma woccurs_one {W} (o : wop W) p o' : In o p -> WOccurs [o] o' -> WOccurs p o'.
Proof.
  intros Hin H. inversion H as [? ? Ho|? a q ? Ha Hs Hq]; subst.
  - destruct Ho as [->|[]]. by apply WOccurs_here.
  - destruct Ha as [->|[]]. eapply WOccurs_deeper; eauto.
Qed.
Lemma woccurs_self {W} (o : wop W) : WOccurs [o] o.
Proof. apply WOccurs_here. by left. Qed.

Section Self.
Context {W : Type} (k : likeness).
Context (HT : forall t, T k t t) (HA : forall a, A k a a) (HX : forall e, X k e e).

Lemma wlike_content_refl (c : wcontent W) : WLikeContent k eq c c.
Proof.
  induction c as [c|f|c IH].
  - by apply WLC_plain, like_content_refl.
  - apply WLC_live; [by intros i w v ->|]. intros i w v ->. destruct (snd (f i v)) as [r|err]; constructor.
    + apply like_option_refl. intros. by apply like_event_refl.
    + by apply like_error_refl.
  - by apply WLC_ok.
Qed.

Definition wself_ok (o : wop W) : Prop :=
  (forall m, Selects o m -> alike_sel k m m) /\
  (forall f, o <> WApplyAsTemplate f) /\
  (forall o' f, o = stateless_op o' -> Changes o' f -> forall a a', A k a a' -> A k (f a) (f a')).

Lemma wlike_all p : (forall o, In o p -> WLikeOp k eq o o) -> WLike k (@eq W) p p.
Proof.
  intros H. induction p as [|o p IH]; constructor.
  - apply H. by left.
  - apply IH. intros o' Ho'. apply H. by right.
Qed.
Lemma wlike_once b : (forall w, WLike k eq (snd (b w)) (snd (b w))) -> WLikeOnce k (@eq W) b b.
Proof. intros H. constructor; [by intros w v ->|]. intros w v ->. apply H. Qed.
Lemma wlike_iter (it : iterator W) :
  (forall q, (exists i v v' b w, it i v = (v', Some b) /\ q = snd (b w)) -> WLike k eq q q) -> WLikeIter k (@eq W) it it.
Proof.
  intros H. constructor; [by intros i w v ->|]. intros i w v ->. destruct (it i v) as [v' [b|]] eqn:E; cbn; constructor.
  apply wlike_once. intros w'. apply H. by exists i, v, v', b, w'.
Qed.
Lemma wlike_changing o : changing o = true ->
  (forall f, Changes o f -> forall a a', A k a a' -> A k (f a) (f a')) ->
  WLikeOp k (@eq W) (stateless_op o) (stateless_op o).
Proof.
  intros H Hf. destruct (changing_spec o H) as [[f Hc]|[err Hb]].
  - eapply WL_attribute; [done|done|by apply Hf|done].
  - by eapply WL_bad_name.
Qed.

Lemma wlike_self_op : forall o, (forall o', WOccurs [o] o' -> wself_ok o') -> WLikeOp k (@eq W) o o.
Proof.
  intros o. induction o as [o IH] using wop_ind_makes. intros Ho.
  assert (forall q, Makes o q -> WLike k eq q q) as IHq.
  { intros q Hq. apply wlike_all. intros o' Hi. apply (IH q o' Hq Hi). intros o'' Ho''. apply Ho.
    eapply WOccurs_deeper; [by left|exact Hq|]. by eapply woccurs_one. }
  destruct (Ho o (woccurs_self o)) as (Hsel & Hfun & Hch).
  assert (forall m : selector + stream_error, (forall m', m = inl m' -> Selects o m') -> LikeSelector k m m) as HS.
  { intros [m|err] Hm; constructor; [|by apply like_error_refl]. by apply Hsel, Hm. }
  pose proof wlike_content_refl as Hc.
  destruct o.
  all: try (by destruct (Hfun f)).
  all: try (match goal with
    | |- WLikeOp _ _ (WAddAttribute ?n ?v) _ => apply (wlike_changing (OAddAttribute n v))
    | |- WLikeOp _ _ (WAddToAttribute ?n ?v ?s) _ => apply (wlike_changing (OAddToAttribute n v s))
    | |- WLikeOp _ _ (WReplaceAttribute ?n ?v) _ => apply (wlike_changing (OReplaceAttribute n v))
    | |- WLikeOp _ _ (WSetAttribute ?n ?v) _ => apply (wlike_changing (OSetAttribute n v))
    | |- WLikeOp _ _ (WRemoveAttribute ?n) _ => apply (wlike_changing (ORemoveAttribute n))
    | |- WLikeOp _ _ (WAddClass ?n) _ => apply (wlike_changing (OAddClass n))
    | |- WLikeOp _ _ (WRemoveClass ?n) _ => apply (wlike_changing (ORemoveClass n))
    | |- WLikeOp _ _ WRemoveId _ => apply (wlike_changing ORemoveId)
    | |- WLikeOp _ _ (WSetId ?n) _ => apply (wlike_changing (OSetId n)) end;
    [done|intros g Hg; refine (Hch _ g _ Hg); reflexivity]; fail).
  all: constructor; try apply Hc; try (apply HS; intros m' ->; constructor).
  all: try (apply IHq; reflexivity).
  all: try (intros i); try (apply wlike_once; intros w; apply IHq; cbn; eauto; fail).
  all: apply wlike_iter; intros q Hq; apply IHq; cbn; eauto.
Qed.
Lemma wlike_self b : (forall o, CanMake b o -> wself_ok o) -> WLikeOnce k (@eq W) b b.
Proof.
  intros H. apply wlike_once. intros w. apply wlike_all. intros o Hi. apply wlike_self_op.
  intros o' Ho'. apply H. exists w. by eapply woccurs_one.
Qed.
End Self.

Lemma wonly_texts {W} (X0 : event -> event -> Prop) evs evs' (b : once W) w r w1 r' w1' :
  (forall e, X0 e e) -> WElementSelectors b -> WNoFunctions b ->
  Forall2 (LikeEvent (OnlyTexts X0)) evs evs' -> GivesIn evs b w r w1 -> GivesIn evs' b w r' w1' ->
  LikeResult (OnlyTexts X0) r r' /\ w1 = w1'.
Proof.
  intros HX Hs Hf Hev Hg Hg'.
  assert (WLikeOnce (OnlyTexts X0) (@eq W) b b) as Hp.
  { apply wlike_self; [done..|]. intros o Ho. split_and!.
    - intros m Hm. eapply only_texts_selector, Hs; eauto.
    - intros f ->. by eapply Hf.
    - intros o' f _ _ a a' Ha. cbn in *. by subst. }
  destruct (proj1 (like_gives _ (only_texts_coherent X0) eq evs evs' b b w w Hev eq_refl Hp) r w1 Hg)
    as (r2 & w2 & H2 & Hl & <-).
  by destruct (gives_in_det _ _ _ _ _ _ _ Hg' H2) as [-> ->].
Qed.
Lemma wonly_attributes {W} hide evs evs' (b : once W) w r w1 r' w1' :
  CaseBlind hide -> hide (lit "class") = false -> hide (lit "id") = false ->
  WLibrarySelectors b -> WNoFunctions b ->
  (forall o n, CanMake b o -> WAbout o n -> hide n = false) ->
  Forall2 (LikeEvent (OnlyAttributes hide)) evs evs' -> GivesIn evs b w r w1 -> GivesIn evs' b w r' w1' ->
  LikeResult (OnlyAttributes hide) r r' /\ w1 = w1'.
Proof.
  intros Hcase Hcl Hid Hs Hf Hn Hev Hg Hg'.
  assert (WLikeOnce (OnlyAttributes hide) (@eq W) b b) as Hp.
  { apply wlike_self; [done..|]. intros o Ho. split_and!.
    - intros m Hm. eapply only_attributes_selector; eauto.
    - intros f ->. by eapply Hf.
    - intros o' f -> Hc a a' Ha. cbn in *.
      assert (exists n, About o' n) as [n Hab] by (destruct Hc; eexists; constructor).
      assert (hide n = false) by (eapply Hn; [exact Ho|by exists o']).
      rewrite !(show_change hide Hcase o' n f) by done. by rewrite Ha. }
  destruct (proj1 (like_gives _ (only_attributes_coherent hide) eq evs evs' b b w w Hev eq_refl Hp) r w1 Hg)
    as (r2 & w2 & H2 & Hl & <-).
  by destruct (gives_in_det _ _ _ _ _ _ _ Hg' H2) as [-> ->].
Qed.

(** ** Renamed tags *)

Section Renamed.
Context {W : Type} (f : str -> str) (Hf : Renames f).
Notation k := (Renaming f).
Notation Rs := (@eq W).

Lemma wrenamed_content (c : wcontent W) : WLikeContent k Rs c (wrename_content f c).
Proof.
  induction c as [c|g|c IH]; cbn.
  - by apply WLC_plain, renamed_content.
  - apply WLC_live; intros i w v ->; unfold rename_live; destruct (g i v) as [v' [ev|err]]; cbn; try done.
    + constructor. by apply renamed_option.
    + constructor. by apply renamed_error.
  - by apply WLC_ok.
Qed.
Definition wren_ok (o : wop W) : Prop :=
  (forall m, Selects o m -> forall g, m <> SelCustom g) /\ (forall g, o <> WApplyAsTemplate g).
Lemma wren_all p : (forall o, In o p -> WLikeOp k Rs o (wrename_op f o)) -> WLike k Rs p (map (wrename_op f) p).
Proof.
  intros H. induction p as [|o p IH]; constructor.
  - apply H. by left.
  - apply IH. intros o' Ho'. apply H. by right.
Qed.
Lemma wren_once b : (forall w, WLike k Rs (snd (b w)) (map (wrename_op f) (snd (b w)))) ->
  WLikeOnce k Rs b (rename_once f b).
Proof.
  intros H. constructor; intros w v ->; specialize (H v); unfold rename_once; by destruct (b v).
Qed.
Lemma wren_iter (it : iterator W) :
  (forall q, (exists i v v' b w, it i v = (v', Some b) /\ q = snd (b w)) -> WLike k Rs q (map (wrename_op f) q)) ->
  WLikeIter k Rs it (fun i w => let '(w', r) := it i w in
    (w', match r with Some b => Some (rename_once f b) | None => None end)).
Proof.
  intros H. constructor; intros i w v ->; destruct (it i v) as [v' [b|]] eqn:E; cbn; try constructor; try done.
  apply wren_once. intros w'. apply H. by exists i, v, v', b, w'.
Qed.
Lemma wrenamed_op : forall o, (forall o', WOccurs [o] o' -> wren_ok o') -> WLikeOp k Rs o (wrename_op f o).
Proof.
  intros o. induction o as [o IH] using wop_ind_makes. intros Ho.
  assert (forall q, Makes o q -> WLike k eq q (map (wrename_op f) q)) as IHq.
  { intros q Hq. apply wren_all. intros o' Hi. apply (IH q o' Hq Hi). intros o'' Ho''. apply Ho.
    eapply WOccurs_deeper; [by left|exact Hq|]. by eapply woccurs_one. }
  destruct (Ho o (woccurs_self o)) as (Hsel & Hfun).
  assert (forall m : selector + stream_error, (forall m', m = inl m' -> Selects o m') ->
    LikeSelector k m (rename_argument f m)) as HS.
  { intros [m|err] Hm; constructor; [|by apply renamed_error]. apply renamed_selector; [done|]. by apply Hsel, Hm. }
  assert (forall a, A k a a) as HA by done.
  assert (forall o, changing o = true -> WLikeOp k Rs (stateless_op o) (stateless_op o)) as Hch.
  { intros o1 H1. apply wlike_changing; [done|]. intros g _ a a' Ha. cbn in *. by subst. }
  pose proof wrenamed_content as Hc.
  destruct o; cbn [wrename_op].
  all: try (by destruct (Hfun f0)).
  all: try (match goal with
    | |- WLikeOp _ _ (WAddAttribute ?n ?v) _ => apply (Hch (OAddAttribute n v))
    | |- WLikeOp _ _ (WAddToAttribute ?n ?v ?s) _ => apply (Hch (OAddToAttribute n v s))
    | |- WLikeOp _ _ (WReplaceAttribute ?n ?v) _ => apply (Hch (OReplaceAttribute n v))
    | |- WLikeOp _ _ (WSetAttribute ?n ?v) _ => apply (Hch (OSetAttribute n v))
    | |- WLikeOp _ _ (WRemoveAttribute ?n) _ => apply (Hch (ORemoveAttribute n))
    | |- WLikeOp _ _ (WAddClass ?n) _ => apply (Hch (OAddClass n))
    | |- WLikeOp _ _ (WRemoveClass ?n) _ => apply (Hch (ORemoveClass n))
    | |- WLikeOp _ _ WRemoveId _ => apply (Hch ORemoveId)
    | |- WLikeOp _ _ (WSetId ?n) _ => apply (Hch (OSetId n)) end; done).
  all: constructor; try apply Hc; try (apply HS; intros m' ->; constructor).
  all: try (apply IHq; reflexivity).
  all: try (intros i); try (apply wren_once; intros w; apply IHq; cbn; eauto; fail).
  all: apply wren_iter; intros q Hq; apply IHq; cbn; eauto.
Qed.
Lemma wrenamed b : WLibrarySelectors b -> WNoFunctions b -> WLikeOnce k Rs b (rename_once f b).
Proof.
  intros Hs Hn. apply wren_once. intros w. apply wren_all. intros o Hi. apply wrenamed_op.
  intros o' Ho'. assert (CanMake b o') as Hc by (exists w; by eapply woccurs_one). split.
  - intros m Hm. by eapply Hs.
  - intros g ->. by eapply Hn.
Qed.
Lemma wrenamed_gives evs (b : once W) (w : W) r w' : WLibrarySelectors b -> WNoFunctions b -> GivesIn evs b w r w' ->
  GivesIn (map (rename_event f) evs) (rename_once f b) w (rename_result f r) w'.
Proof.
  intros Hs Hn Hg.
  destruct (proj1 (like_gives k (renaming_coherent f Hf) Rs evs _ b _ w w (proj2 (renamed_events f evs _) eq_refl)
    eq_refl (wrenamed b Hs Hn)) r w' Hg) as (r' & v' & Hr & Hl & <-).
  assert (r' = rename_result f r) as <-; [|done].
  destruct Hl as [out out' Ho|err err' He]; cbn.
  - by rewrite (proj1 (renamed_events f _ _) Ho).
  - by rewrite (proj1 (renamed_error f _ _) He).
Qed.
End Renamed.
