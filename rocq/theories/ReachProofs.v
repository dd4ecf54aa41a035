(** Every template a program can obtain is well nested (C17), transformations end (C16). *)
From Coq Require Import String ZArith.
From stdpp Require Import gmap.
From Verif Require Import Text Event Input Parse Selector Machine Template StreamBase.
From Verif Require Import SpecText SpecAttr SpecParse SpecTree SpecTransform TextProofs.
From Verif Require Import ParseProofs5 ParseProofs9.
From Verif Require Import Trace TraceProofs PipelineProofs FuelProofs TreeProofs.
Local Open Scope nat_scope.

(** ** Parsing *)

Lemma attrs_valid s a r : Attrs s a r -> ValidAttrs a.
Proof.
  induction 1; intros x; [intros []| |]; (intros [<-|Hx]; [|now apply IHAttrs]); simpl; apply H.
Qed.
Lemma spells_valid slice ev : Spells slice ev -> ValidEvent ev.
Proof.
  assert (HT : forall slice n a slash, Tag slice n a slash -> ValidTag (name n) /\ ValidAttrs a).
  { intros ? n a slash (r & (_ & _ & w & w' & s' & _ & _ & Hn & _ & Ha) & _).
    split; [apply Hn|]. eapply attrs_valid; eauto. }
  destruct 1; simpl; eauto.
  destruct H as (? & ? & ? & _ & _ & _ & _ & Hn). apply Hn.
Qed.
Lemma slice_valid slice ev : SliceOf slice ev -> ValidEvent ev.
Proof. destruct ev; simpl; try exact (fun _ => I); apply spells_valid. Qed.

Lemma forest_nest evs : Forest evs -> (forall ev, In ev evs -> ValidEvent ev) ->
  forall st, nest st evs = Some st.
Proof.
  induction 1 as [|ev rest Hl _ IH|t a kids t' rest Hs _ IHk _ IHr]; intros Hv st; [reflexivity| |].
  - simpl. rewrite proper_leaf_nest; auto; [|apply Hv; now left]. apply IH.
    intros e He. apply Hv. now right.
  - assert (ValidEvent (OpeningTag t a)) as [H1 H2] by (apply Hv; now left).
    simpl. rewrite (proj2 (valid_start_spec t a)) by auto. rewrite nest_app, IHk.
    + simpl. rewrite close_eqb by auto. apply IHr. intros e He. apply Hv. right.
      apply in_or_app. right. now right.
    + intros e He. apply Hv. right. apply in_or_app. now left.
Qed.
Lemma parsed_well_nested s o evs : from_str s o = TOk evs -> WellNested evs.
Proof.
  intros H. apply well_nested_iff. apply forest_nest.
  - eapply from_str_forest; eauto.
  - destruct (from_str_slices s o evs H) as (slices & _ & Hsl). clear H.
    induction Hsl; intros ev; [intros []|]. intros [<-|Hin]; [|auto]. eapply slice_valid; eauto.
Qed.
Lemma from_file_from_str path opened o evs : from_file path opened o = TOk evs ->
  exists s, from_str s o = TOk evs.
Proof.
  unfold from_file. destruct opened as [reads|]; [|discriminate].
  destruct (read_loop _ _ _ _ _ _) as [[s|e]|]; try discriminate.
  destruct (from_str s o) eqn:E; try discriminate. intros [= <-]. eauto.
Qed.
Lemma tree_forest x : ProperTree x -> forall rest, Forest rest -> Forest (tree_events x ++ rest).
Proof.
  revert x. apply (tree_rect' (fun x => ProperTree x -> forall rest, Forest rest ->
                                        Forest (tree_events x ++ rest))).
  - intros ev Hp rest Hr. inversion Hp; subst. simpl. now apply F_leaf.
  - intros t a kids c IH Hp rest Hr. inversion Hp; subst. rewrite tree_events_elem. simpl.
    rewrite <- app_assoc. apply F_elem; auto. clear Hp.
    induction kids as [|y kids IHk]; [constructor|]. rewrite events_cons. apply IH; [now left|auto..].
    + apply H6. now left.
    + apply IHk; intros; [apply IH|apply H6]; auto; now right.
Qed.
Lemma proper_forest F : Proper F -> Forest (events F).
Proof.
  induction F as [|x F IH]; intros H; [constructor|]. apply proper_cons in H as [H1 H2].
  rewrite events_cons. apply tree_forest; auto.
Qed.
Lemma well_nested_forest evs : WellNested evs -> Forest evs.
Proof. intros (F & HF & ->). now apply proper_forest. Qed.
Lemma same_name_valid a b : SameName a b -> ValidName a -> ValidName b.
Proof.
  intros H [Hne Hv]. split; [intros ->; inversion H; subst; congruence|].
  intros c Hc. clear Hne. induction H as [|x y a b Hxy _ IH]; [destruct Hc|].
  destruct Hc as [<-|Hc].
  - destruct (Hv x (or_introl eq_refl)) as (H1 & H2 & H3).
    destruct Hxy as [<-|Hxy]; [auto|]. unfold char in *. repeat split.
    + lia.
    + unfold AsciiSpace. lia.
    + unfold ForbiddenChar. simpl. unfold char in *. lia.
  - apply IH; auto. intros z Hz. apply Hv. now right.
Qed.
Lemma tree_valid : forall x, ProperTree x -> forall ev, In ev (tree_events x) -> ValidEvent ev /\ ev <> Noop.
Proof.
  apply (tree_rect' (fun x => ProperTree x -> forall ev, In ev (tree_events x) -> ValidEvent ev /\ ev <> Noop)).
  - intros ev Hp ev' [<-|[]]. inversion Hp; subst. split; auto. intros ->. contradiction.
  - intros t a kids c IH Hp ev Hin. inversion Hp; subst. rewrite tree_events_elem in Hin.
    destruct Hin as [<-|Hin]; [split; [split; auto|discriminate]|].
    apply in_app_or in Hin as [Hin|[<-|[]]].
    + apply in_flat_map in Hin as (y & Hy & Hin). eapply IH; eauto.
    + split; [|discriminate]. simpl. eapply same_name_valid; eauto.
Qed.
Lemma well_nested_valid evs ev : WellNested evs -> In ev evs -> ValidEvent ev /\ ev <> Noop.
Proof.
  intros (F & HF & ->) Hin. apply in_flat_map in Hin as (x & Hx & Hin). eapply tree_valid; eauto.
Qed.

(** ** Transformations *)

Lemma transform_well_nested source p e evs : WellNested source -> typed false p e ->
  ValidArgs p -> Gives source p (inl evs) -> WellNested evs.
Proof.
  intros Hs Ht Hv Hg. pose proof (good_template _ Hs) as Hgood.
  pose proof (gives_trace _ _ _ _ _ Hgood Ht Hv Hg) as Htr.
  destruct (keeps_pipe p false e Ht (valid_args_well _ Hv) _ Hgood) as [Hk _].
  rewrite Htr in Hk. apply good_false in Hk. now apply well_nested_iff.
Qed.

Lemma with_element_well_nested tag evs : ValidName (id_str tag) ->
  with_element (inl tag) = inl evs -> WellNested evs.
Proof.
  intros Hv [= <-]. destruct (is_void_tag (id_str tag)).
  - apply (well_nested_tree (Leaf (VoidTag tag []))). constructor; [exact I|]. split; [exact Hv|intros x []].
  - apply (well_nested_tree (Leaf (SelfClosedTag tag []))). constructor; [exact I|].
    split; [exact Hv|intros x []].
Qed.

Lemma valid_args_select_once direct sel p : ValidArgs p -> ValidArgs [OSelectOnce direct sel p].
Proof.
  assert (forall o, Occurs [OSelectOnce direct sel p] o -> o = OSelectOnce direct sel p \/ Occurs p o) as Ho.
  { intros o H. inversion H; subst.
    - destruct H0 as [<-|[]]. now left.
    - destruct H0 as [<-|[]]. simpl in H1. subst q. now right. }
  intros (H1 & H2 & H3 & H4). split; [|split; [|split]].
  - intros o i Hocc. destruct (Ho o Hocc) as [->|H]; [discriminate|eauto].
  - intros o evs Hocc. destruct (Ho o Hocc) as [->|H]; [|eauto]. intros (c & Hc & _). discriminate.
  - intros o f x y Hocc. destruct (Ho o Hocc) as [->|H]; [discriminate|eauto].
  - intros o evs Hocc. destruct (Ho o Hocc) as [->|H]; [|eauto]. intros (c & Hc & _). discriminate.
Qed.

Lemma obtainable_well_nested evs : forall G, Obtainable G evs ->
  (forall z, G z -> WellNested z) -> WellNested evs.
Proof.
  intros G H. induction H as
    [G evs H|G d|G s o evs H|G path opened o evs H|G tag evs Hv H
    |G tag p e n h evs rest Hv Ht Hn Hc IHc Hf IHf Hb IHb H
    |G source p e n h evs rest Hs IHs Ht Hn Hc IHc Hf IHf Hb IHb H]; intros HG.
  - auto.
  - exists [Leaf (Data d)]. split; [|reflexivity]. intros x [<-|[]]. now constructor.
  - eapply parsed_well_nested; eauto.
  - destruct (from_file_from_str _ _ _ _ H) as [s Hs]. eapply parsed_well_nested; eauto.
  - eapply with_element_well_nested; eauto.
  - assert (ValidArgs p) as Hva.
    { split; [exact Hn|]. split; [eauto|]. split.
      - intros o f x y Ho Ef Hx Ey. eapply IHf; eauto. intros z [Hz| ->]; auto.
      - intros o x Ho Hx. exists (rest o x). eauto. }
    eapply (transform_well_nested _ [OSelectOnce false (inl (SelTag tag)) p] false).
    + eapply (with_element_well_nested tag); eauto.
    + econstructor; [econstructor; eauto|constructor].
    + now apply valid_args_select_once.
    + exists n, h. exact H.
  - eapply (transform_well_nested source p e); eauto.
    + split; [exact Hn|]. split; [eauto|]. split.
      * intros o f x y Ho Ef Hx Ey. eapply IHf; eauto. intros z [Hz| ->]; auto.
      * intros o x Ho Hx. exists (rest o x). eauto.
    + exists n, h. exact H.
Qed.
